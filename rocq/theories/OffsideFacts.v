(** * Lemmas: block structure by indentation. *)
From Coq Require Import Sorted.
From Verif Require Import Str Tokens Fmt SpecTokens SpecFmt SpecFile BlockFacts Macro SpecMacro MacroFacts MacroLines SpecWords WordsFacts SpecOffside.

(** ** Lines of a string *)
Lemma physical_app l : forall line s, ~ In 10%N l -> ~ In 13%N l -> physical_lines line (l ++ s) = physical_lines (line ++ l) s.
Proof.
  induction l as [|c l IH]; intros line s N1 N2; [rewrite app_nil_r; reflexivity|].
  assert (C1 : c <> 10%N) by (intros ->; apply N1; left; reflexivity). assert (C2 : c <> 13%N) by (intros ->; apply N2; left; reflexivity).
  replace (line ++ c :: l) with ((line ++ [c]) ++ l) by (rewrite <- app_assoc; reflexivity).
  rewrite <- IH by (intros I; first [apply N1; right; exact I|apply N2; right; exact I]).
  cbn [app]. cbn [physical_lines]. destruct c as [|p]; [reflexivity|].
  do 4 (destruct p as [p|p|]; try reflexivity; try congruence).
Qed.
Lemma physical_join nl ls : line_end nl -> Forall (fun l => ~ In 10%N l /\ ~ In 13%N l) ls -> ls <> [] ->
  physical_lines [] (join nl ls) = ls.
Proof.
  intros NL F. induction F as [|x ls [N1 N2] F IH]; intros N; [congruence|].
  destruct ls as [|y ls].
  - cbn [join]. rewrite <- (app_nil_r x) at 1. rewrite physical_app by auto. reflexivity.
  - change (join nl (x :: y :: ls)) with (x ++ nl ++ join nl (y :: ls)). rewrite physical_app by auto. cbn [app].
    rewrite <- (IH ltac:(discriminate)) at 2.
    destruct NL as [->|[->| ->]]; [reflexivity|reflexivity|]. cbn [app physical_lines].
    destruct (join [13%N] (y :: ls)) as [|c s] eqn:J; [reflexivity|].
    assert (C1 : c <> 10%N).
    { inversion F as [|? ? [M _] F' E0]; subst. destruct y as [|c' y]; [|intros ->; apply M; left; destruct ls; cbn in J; congruence].
      destruct ls; cbn in J; [discriminate|]. injection J as <- _. discriminate. }
    destruct c as [|p]; [reflexivity|]. do 4 (destruct p as [p|p|]; try reflexivity; try congruence).
Qed.

(** ** Columns *)
Definition width (ind : indentation_kind) : nat := match ind with ISpace w => w | ITab => 8 end.
Lemma columns_plain col s : plain s -> columns col s = (col, s).
Proof.
  intros [(c & s' & -> & N1 & N2 & _) _]. cbn [columns]. destruct c as [|p]; [reflexivity|].
  do 6 (destruct p as [p|p|]; try reflexivity; try congruence).
Qed.
Lemma columns_spaces n : forall col s, columns col (repeat 32%N n ++ s) = columns (col + n) s.
Proof. induction n as [|n IH]; intros col s; cbn [repeat app columns]; [rewrite Nat.add_0_r; reflexivity|rewrite IH; f_equal; lia]. Qed.
Lemma columns_tabs n : forall k s, columns (8 * k) (repeat 9%N n ++ s) = columns (8 * (k + n)) s.
Proof.
  induction n as [|n IH]; intros k s; [rewrite Nat.add_0_r; reflexivity|]. cbn [repeat app].
  change (columns (8 * k) (9%N :: repeat 9%N n ++ s)) with (columns (8 * S (8 * k / 8)) (repeat 9%N n ++ s)).
  rewrite (Nat.mul_comm 8 k), Nat.div_mul by lia. rewrite IH. f_equal. lia.
Qed.
Lemma columns_indented ind n s : plain s -> columns 0 (indent_text ind (Z.of_nat n) ++ s) = (width ind * n, s).
Proof.
  intros P. unfold indent_text. rewrite Z.max_l, Nat2Z.id by lia. destruct ind as [w|]; cbn [width].
  - rewrite columns_spaces, columns_plain by exact P. f_equal. lia.
  - rewrite (columns_tabs n 0), columns_plain by exact P. reflexivity.
Qed.
Lemma indented_columns ind n l : indented ind l -> columns 0 (indent_line (indent_text ind (Z.of_nat n)) l) =
  match l with [] => (0, []) | _ => (width ind * n + fst (columns 0 l), snd (columns 0 l)) end.
Proof.
  intros [->|(m & s & -> & P)]; [reflexivity|]. pose proof (columns_indented ind m s P) as C.
  assert (N : indent_text ind (Z.of_nat m) ++ s <> []) by (destruct P as [(c & s' & -> & _) _]; destruct (indent_text ind (Z.of_nat m)); discriminate).
  destruct (indent_text ind (Z.of_nat m) ++ s) as [|x l] eqn:E; [congruence|]. rewrite C. unfold indent_line. rewrite <- E, app_assoc, <- indent_text_add by lia.
  rewrite <- Nat2Z.inj_add, columns_indented by exact P. cbn [fst snd]. f_equal. lia.
Qed.
Lemma plain_counts s : plain s -> ignored s = false.
Proof. intros [(c & s' & -> & _ & _ & _ & N) _]. cbn. apply N.eqb_neq. exact N. Qed.

(** ** Runs *)
Fixpoint run (open : list nat) (lines : list (nat * str)) : option (list event * list nat) :=
  match lines with
  | [] => Some ([], open)
  | (col, s) :: lines' =>
      if ignored s then run open lines'
      else match start_line col open with
           | None => None
           | Some (es, open') => option_map (fun '(more, o) => (es ++ Statement s :: more, o)) (run open' lines')
           end
  end.
Lemma run_blocks l1 l2 : forall open, blocks open (l1 ++ l2) =
  match run open l1 with Some (es, o) => option_map (app es) (blocks o l2) | None => None end.
Proof.
  induction l1 as [|[c s] l1 IH]; intros open; cbn [app blocks run]; [destruct (blocks open l2); reflexivity|].
  destruct (ignored s); [apply IH|]. destruct (start_line c open) as [[es o]|]; [|reflexivity]. rewrite IH.
  destruct (run o l1) as [[es1 o1]|]; cbn [option_map]; [|reflexivity]. destruct (blocks o1 l2) as [x|]; cbn [option_map]; [|reflexivity].
  rewrite <- app_assoc. reflexivity.
Qed.
Lemma run_all open lines : blocks open lines =
  option_map (fun '(es, o) => es ++ repeat Dedent (length o - 1)) (run open lines).
Proof. rewrite <- (app_nil_r lines) at 1. rewrite run_blocks. destruct (run open lines) as [[es o]|]; reflexivity. Qed.

(** Blocks relative to a base column. *)
Definition based (st : list nat) : Prop := exists ts, st = ts ++ [0] /\ Forall (lt 0) ts.
Lemma close_based B outer col st : based st ->
  match close_blocks col st with
  | Some (n, o) => based o /\ close_blocks (B + col) (map (Nat.add B) st ++ outer) = Some (n, map (Nat.add B) o ++ outer)
  | None => close_blocks (B + col) (map (Nat.add B) st ++ outer) = None
  end.
Proof.
  intros (ts & -> & F). induction F as [|t ts T F IH]; cbn [app map close_blocks].
  - destruct (Nat.eqb_spec col 0) as [->|N]; [rewrite Nat.eqb_refl; split; [exists []; auto|reflexivity]|].
    destruct (Nat.ltb_spec col 0); [lia|]. destruct (Nat.eqb_spec (B + col) (B + 0)); [lia|]. destruct (Nat.ltb_spec (B + col) (B + 0)); [lia|reflexivity].
  - destruct (Nat.eqb_spec col t) as [->|N]; [rewrite Nat.eqb_refl; split; [exists (t :: ts); auto|reflexivity]|].
    destruct (Nat.eqb_spec (B + col) (B + t)) as [|_]; [lia|]. destruct (Nat.ltb_spec col t); destruct (Nat.ltb_spec (B + col) (B + t)); try lia; [|reflexivity].
    destruct (close_blocks col (ts ++ [0])) as [[n o]|]; cbn [option_map]; [destruct IH as [I1 I2]; split; [exact I1|]; rewrite I2; reflexivity|rewrite IH; reflexivity].
Qed.
Lemma start_based B outer col st : based st ->
  match start_line col st with
  | Some (es, o) => based o /\ start_line (B + col) (map (Nat.add B) st ++ outer) = Some (es, map (Nat.add B) o ++ outer)
  | None => start_line (B + col) (map (Nat.add B) st ++ outer) = None
  end.
Proof.
  intros Bs. pose proof (close_based B outer col st Bs) as C. destruct st as [|t st]; [destruct Bs as ([|] & X & _); discriminate|].
  unfold start_line. cbn [map app] in *. destruct (Nat.ltb_spec t col) as [L|L]; destruct (Nat.ltb_spec (B + t) (B + col)); try lia.
  - split; [|reflexivity]. destruct Bs as (ts & E & F). exists (col :: ts). rewrite E. split; [reflexivity|]. constructor; [lia|exact F].
  - destruct (close_blocks col (t :: st)) as [[n o]|]; cbn [option_map]; [destruct C as [C1 C2]; split; [exact C1|]; rewrite C2; reflexivity|rewrite C; reflexivity].
Qed.
Lemma run_based B outer (f : nat * str -> nat * str) lines : 
  (forall l, In l lines -> ignored (snd (f l)) = ignored (snd l)) ->
  (forall l, In l lines -> ignored (snd l) = false -> f l = (B + fst l, snd l)) -> forall st, based st ->
  match run st lines with
  | Some (es, o) => based o /\ run (map (Nat.add B) st ++ outer) (map f lines) = Some (es, map (Nat.add B) o ++ outer)
  | None => run (map (Nat.add B) st ++ outer) (map f lines) = None
  end.
Proof.
  induction lines as [|[c s] lines IH]; intros I1 I2 st Bs; cbn [run map]; [auto|].
  assert (IH' := IH (fun l H => I1 l (or_intror H)) (fun l H => I2 l (or_intror H))). clear IH.
  specialize (I1 (c, s) (or_introl eq_refl)). specialize (I2 (c, s) (or_introl eq_refl)). cbn [fst snd] in *.
  destruct (f (c, s)) as [c' s'] eqn:Ff. cbn [snd] in I1. rewrite I1. destruct (ignored s); [apply IH'; exact Bs|].
  injection (I2 eq_refl) as -> ->. pose proof (start_based B outer c st Bs) as P. destruct (start_line c st) as [[es o]|].
  - destruct P as [P1 P2]. rewrite P2. specialize (IH' o P1). destruct (run o lines) as [[es1 o1]|]; cbn [option_map].
    + destruct IH' as [Q1 Q2]. split; [exact Q1|]. rewrite Q2. reflexivity.
    + rewrite IH'. reflexivity.
  - rewrite P. reflexivity.
Qed.

(** ** Levels *)
Fixpoint outs (w n : nat) : list nat := match n with 0 => [] | S m => w * m :: outs w m end.
Lemma outs_length w n : length (outs w n) = n.
Proof. induction n; cbn [outs length]; congruence. Qed.

Lemma start_enclosing ss col : ss <> [] ->
  match start_line col (enclosing ss) with
  | Some (es, o) => may_start ss col /\ o = enclosing (ss ++ [col]) /\
      (last ss 0 < col /\ es = [Indent] /\ level (ss ++ [col]) = S (level ss) \/
       col <= last ss 0 /\ exists n, es = repeat Dedent n /\ level ss = n + level (ss ++ [col]))
  | None => ~ may_start ss col
  end.
Proof.
  intros N. destruct (enclosing_top ss N) as [l T]. pose proof (level_enclosing ss N) as LV.
  assert (N2 : ss ++ [col] <> []) by (destruct ss; discriminate). pose proof (level_enclosing _ N2) as LV2. rewrite enclosing_snoc in *.
  assert (SO := enclosing_sorted ss).
  assert (CO : forall cs, close_blocks col cs = outdent col cs).
  { induction cs as [|c cs IH]; [reflexivity|]. cbn [close_blocks outdent]. rewrite Nat.eqb_sym, IH. reflexivity. }
  rewrite T in *. unfold start_line. destruct (Nat.ltb_spec (last ss 0) col) as [C|C].
  - assert (Q : filter (fun d => d <? col) (last ss 0 :: l) = last ss 0 :: l).
    { inversion SO as [|? ? _ F]; subst. cbn [filter]. destruct (Nat.ltb_spec (last ss 0) col); [|lia]. f_equal.
      clear -F C. induction F as [|x l H _ IH]; [reflexivity|]. cbn [filter]. destruct (Nat.ltb_spec x col); [rewrite IH; auto|lia]. }
    rewrite Q in *. split; [left; lia|]. split; [reflexivity|]. left. split; [exact C|]. split; [reflexivity|]. cbn [length] in *. lia.
  - rewrite CO. pose proof (outdent_spec col _ SO) as O. destruct (outdent col (last ss 0 :: l)) as [[n cs]|]; cbn [option_map].
    + destruct O as (I & -> & LN). split; [right; apply aligned_enclosing; rewrite T; exact I|]. split; [reflexivity|].
      right. split; [lia|]. exists n. split; [reflexivity|]. cbn [length] in *. lia.
    + intros [M|M]; [|apply aligned_enclosing in M; rewrite T in M; auto]. apply O. left. lia.
Qed.

Section Output.
Context (ind : indentation_kind).
Context (Ind : indents ind).
Notation w := (width ind).

Lemma width_pos : 0 < w.
Proof. unfold indents in Ind. destruct ind as [[|k]|]; cbn; [congruence|lia|lia]. Qed.

Lemma close_cons col c o : close_blocks col (c :: o) =
  if col =? c then Some (0, c :: o) else if col <? c then option_map (fun '(n, o) => (S n, o)) (close_blocks col o) else None.
Proof. reflexivity. Qed.
(** The first line below a block, one level deeper or further left. *)
Lemma close_outs n L : close_blocks (w * L) (outs w (S (n + L))) = Some (n, outs w (S L)).
Proof.
  pose proof width_pos as W. induction n as [|n IH].
  - cbn [Nat.add outs]. rewrite close_cons, Nat.eqb_refl. reflexivity.
  - change (outs w (S (S n + L))) with (w * (S n + L) :: outs w (S (n + L))). rewrite close_cons, IH.
    destruct (Nat.eqb_spec (w * L) (w * (S n + L))); [nia|]. destruct (Nat.ltb_spec (w * L) (w * (S n + L))); [reflexivity|nia].
Qed.
Lemma close_open n L ts : Forall (lt 0) ts ->
  close_blocks (w * L) (map (Nat.add (w * (n + L))) (ts ++ [0]) ++ outs w (n + L)) = Some (length ts + n, outs w (S L)).
Proof.
  pose proof width_pos as W. intros F. induction F as [|t ts T F IH]; cbn [app map length Nat.add].
  - rewrite Nat.add_0_r. change (w * (n + L) :: outs w (n + L)) with (outs w (S (n + L))). apply close_outs.
  - rewrite close_cons. destruct (Nat.eqb_spec (w * L) (w * (n + L) + t)); [nia|]. destruct (Nat.ltb_spec (w * L) (w * (n + L) + t)); [|nia].
    rewrite IH. reflexivity.
Qed.
Lemma start_open n L ts : Forall (lt 0) ts ->
  start_line (w * L) (map (Nat.add (w * (n + L))) (ts ++ [0]) ++ outs w (n + L)) = Some (repeat Dedent (length ts + n), outs w (S L)).
Proof.
  intros F. unfold start_line. pose proof (close_open n L ts F) as C. pose proof width_pos as W.
  destruct (map (Nat.add (w * (n + L))) (ts ++ [0]) ++ outs w (n + L)) as [|c o] eqn:E; [destruct ts; discriminate|].
  assert (G : w * L <= c) by (destruct ts as [|t ts]; cbn [app map] in E; injection E as <- _; nia).
  destruct (Nat.ltb_spec c (w * L)); [lia|]. rewrite C. reflexivity.
Qed.

Lemma based_zero : based [0].
Proof. exists []. auto. Qed.

(** One block. *)
Lemma block_run L outer b : proper_block ind b -> forall es, python_lines b = Some es ->
  exists es0 ts, Forall (lt 0) ts /\ es = es0 ++ repeat Dedent (length ts) /\
  run [0] (map (columns 0) b) = Some (es0, ts ++ [0]) /\
  run (w * L :: outer) (map (columns 0) (map (indent_line (indent_text ind (Z.of_nat L))) b)) = Some (es0, map (Nat.add (w * L)) (ts ++ [0]) ++ outer).
Proof.
  intros (s & b' & E & P & F) es H. unfold python_lines in H. rewrite run_all in H.
  destruct (run [0] (map (columns 0) b)) as [[es0 o]|] eqn:R; cbn [option_map] in H; [|discriminate]. injection H as <-.
  assert (FI : Forall (indented ind) b).
  { rewrite E. constructor; [|exact F]. right. exists 0, s. split; [destruct ind; reflexivity|exact P]. }
  set (f := fun l : nat * str => match snd l with [] => (0, []) | _ => (w * L + fst l, snd l) end).
  assert (Q : map (columns 0) (map (indent_line (indent_text ind (Z.of_nat L))) b) = map f (map (columns 0) b)).
  { rewrite !map_map. apply map_ext_in. intros l I. rewrite Forall_forall in FI. rewrite indented_columns by (apply FI; exact I).
    destruct (FI l I) as [->|(m & x & -> & PX)]; [reflexivity|]. rewrite (columns_indented ind m x PX). unfold f. cbn [fst snd].
    destruct PX as [(c & x' & -> & _) _]. destruct (indent_text ind (Z.of_nat m)); reflexivity. }
  pose proof (run_based (w * L) outer f (map (columns 0) b)) as RB.
  assert (I1 : forall l, In l (map (columns 0) b) -> ignored (snd (f l)) = ignored (snd l)).
  { intros [c [|x l]] _; reflexivity. }
  assert (I2 : forall l, In l (map (columns 0) b) -> ignored (snd l) = false -> f l = (w * L + fst l, snd l)).
  { intros [c [|x l]] _ G; [discriminate|reflexivity]. }
  specialize (RB I1 I2 [0] based_zero). rewrite R in RB. destruct RB as [(ts & -> & FT) RB].
  exists es0, ts. split; [exact FT|]. split; [rewrite app_length; cbn [length]; f_equal; f_equal; lia|]. split; [reflexivity|].
  rewrite Q. cbn [map app] in RB. rewrite Nat.add_0_r in RB. exact RB.
Qed.

(** The first event of a block. *)
Lemma ends_dedent b es es0 ts : python_lines b = Some es -> es = es0 ++ repeat Dedent (length ts) -> ts <> [] :> list nat -> ends_deeper b.
Proof.
  intros P E N. destruct ts as [|t ts]; [congruence|]. exists (es0 ++ repeat Dedent (length ts)). rewrite P, E, <- app_assoc. f_equal. f_equal.
  cbn [length]. replace (S (length ts)) with (length ts + 1) by lia. rewrite repeat_app. reflexivity.
Qed.

(** Lines below other lines. *)
Lemma blocks_lines_below ds : Forall (fun l => proper_block ind (side_by_side (ln_word l) (ln_more l))) ds ->
  followed (at_columns ds) -> forall ss ts es, ss <> [] -> Forall (lt 0) ts ->
  (ts <> [] -> match ds with [] => True | d :: _ => ln_col d <= last ss 0 end) ->
  nested (enclosing ss) (at_columns ds) = Some es ->
  blocks (map (Nat.add (w * level ss)) (ts ++ [0]) ++ outs w (level ss)) (map (columns 0) (block_lines ind ss ds)) =
    Some (repeat Dedent (length ts) ++ es).
Proof.
  pose proof width_pos as W.
  intros F. induction F as [|d ds PB F IH]; intros FO ss ts es N FT LAST H.
  - cbn [at_columns map nested block_lines blocks] in *. injection H as <-. rewrite level_enclosing by exact N.
    rewrite app_length, map_length, app_length, outs_length, <- repeat_app. cbn [length]. do 2 f_equal. lia.
  - cbn [at_columns map nested] in H. cbn [at_columns map followed] in FO. fold (at_columns ds) in *. destruct FO as [FO1 FO2].
    destruct (python_lines _) as [within|] eqn:PY; [|discriminate]. pose proof (start_enclosing ss (ln_col d) N) as ST.
    destruct (start_line (ln_col d) (enclosing ss)) as [[pre o]|]; [|discriminate]. destruct ST as (_ & -> & ST).
    destruct (nested _ (at_columns ds)) as [more|] eqn:NE; [|discriminate]. cbn [option_map] in H. injection H as <-.
    set (ss' := ss ++ [ln_col d]) in *. assert (N' : ss' <> []) by (unfold ss'; destruct ss; discriminate).
    assert (LS : last ss' 0 = ln_col d) by (unfold ss'; apply last_last).
    cbn [block_lines]. fold ss'.
    assert (BL : forall rest o, blocks o (map (columns 0) (match ss with [] => [] | _ => if ln_empty d =? 0 then [] else [[]] end ++ rest)) = blocks o (map (columns 0) rest)).
    { intros rest o. destruct ss; [reflexivity|]. destruct (ln_empty d =? 0); reflexivity. }
    rewrite BL. clear BL. destruct (block_run (level ss') (outs w (level ss')) _ PB within PY) as (es0 & ts' & FT' & EW & R0 & R1).
    assert (ED : ts' <> [] -> ends_deeper (side_by_side (ln_word d) (ln_more d))) by (apply (ends_dedent _ _ _ _ PY EW)).
    destruct PB as (s & b' & SB & P & FB). rewrite SB in *. cbn [map app] in *.
    assert (IL : indent_line (indent_text ind (Z.of_nat (level ss'))) s = indent_text ind (Z.of_nat (level ss')) ++ s) by (destruct P as [(c & s' & -> & _) _]; reflexivity).
    rewrite IL in *. rewrite columns_indented in * by exact P. cbn [blocks run] in *. rewrite plain_counts in * by exact P.
    assert (R1' : exists es1, es0 = Statement s :: es1 /\ run (outs w (S (level ss'))) (map (columns 0) (map (indent_line (indent_text ind (Z.of_nat (level ss')))) b')) =
        Some (es1, map (Nat.add (w * level ss')) (ts' ++ [0]) ++ outs w (level ss'))).
    { unfold start_line in R1. rewrite Nat.ltb_irrefl in R1. cbn [close_blocks] in R1. rewrite Nat.eqb_refl in R1. cbn [option_map repeat app] in R1. cbn [outs].
      destruct (run _ _) as [[es1 o1]|] in R1 |- *; [|discriminate]. cbn [option_map] in R1. injection R1 as <- ->. exists es1. auto. }
    clear R1. destruct R1' as (es1 & -> & R1). cbn [app] in EW. subst within.
    assert (SL : start_line (w * level ss') (map (Nat.add (w * level ss)) (ts ++ [0]) ++ outs w (level ss)) = Some (repeat Dedent (length ts) ++ pre, outs w (S (level ss')))).
    { destruct ST as [(C & -> & LV)|(C & n & -> & LV)].
      - destruct ts as [|t ts]; [|specialize (LAST ltac:(discriminate)); cbn in LAST; lia]. cbn [app map length repeat]. rewrite LV. unfold start_line.
        destruct (Nat.ltb_spec (w * level ss + 0) (w * S (level ss))); [|nia]. cbn [outs]. rewrite Nat.add_0_r. reflexivity.
      - rewrite LV. rewrite start_open by exact FT. rewrite repeat_app. reflexivity. }
    rewrite SL. rewrite map_app, run_blocks, R1.
    rewrite (IH FO2 ss' ts' more N' FT').
    + cbn [option_map]. rewrite <- !app_assoc. cbn [app]. rewrite <- !app_assoc. reflexivity.
    + intros NT. destruct ds as [|d' ds]; [exact I|]. rewrite LS. apply FO1. apply ED. exact NT.
    + exact NE.
Qed.

(** Only the enclosing columns matter. *)
Lemma block_lines_enclosing ds : forall ss1 ss2, ss1 <> [] -> ss2 <> [] -> enclosing ss1 = enclosing ss2 ->
  block_lines ind ss1 ds = block_lines ind ss2 ds.
Proof.
  induction ds as [|d ds IH]; intros ss1 ss2 N1 N2 E; [reflexivity|]. cbn [block_lines].
  assert (M1 : ss1 ++ [ln_col d] <> []) by (destruct ss1; discriminate). assert (M2 : ss2 ++ [ln_col d] <> []) by (destruct ss2; discriminate).
  assert (E' : enclosing (ss1 ++ [ln_col d]) = enclosing (ss2 ++ [ln_col d])) by (rewrite !enclosing_snoc, E; reflexivity).
  pose proof (level_enclosing _ M1) as L1. pose proof (level_enclosing _ M2) as L2. rewrite E' in L1.
  rewrite (IH _ _ M1 M2 E'). replace (level (ss1 ++ [ln_col d])) with (level (ss2 ++ [ln_col d])) by lia.
  destruct ss1, ss2; try congruence; reflexivity.
Qed.

Theorem blocks_of_lines ds es : Forall (fun l => proper_block ind (side_by_side (ln_word l) (ln_more l))) ds ->
  followed (at_columns ds) -> nested_blocks (at_columns ds) = Some es ->
  python_lines (block_lines ind [] ds) = Some es.
Proof.
  intros F FO H. destruct ds as [|d ds]; [exact H|]. unfold nested_blocks in H. cbn [at_columns map] in H.
  pose proof (blocks_lines_below (d :: ds) F FO [ln_col d] [] es ltac:(discriminate) ltac:(constructor) ltac:(congruence) H) as B.
  unfold python_lines. cbn [length repeat app] in B. rewrite <- B. cbn [level map app]. rewrite Nat.mul_0_r. cbn [Nat.add app map outs].
  cbn [block_lines app level forallb]. rewrite Nat.ltb_irrefl. cbn [andb Nat.add].
  assert (BE : block_lines ind [ln_col d] ds = block_lines ind [ln_col d; ln_col d] ds).
  { apply block_lines_enclosing; try discriminate. cbn [enclosing forallb app]. rewrite Nat.ltb_irrefl. reflexivity. }
  rewrite BE. destruct (ln_empty d =? 0); reflexivity.
Qed.

(** The lines are as required of blocks. *)
Lemma indented_deeper n l : indented ind l -> indented ind (indent_line (indent_text ind (Z.of_nat n)) l).
Proof.
  intros [->|(m & s & -> & P)]; [left; reflexivity|right]. exists (n + m), s. split; [|exact P].
  assert (N : indent_text ind (Z.of_nat m) ++ s <> []) by (destruct P as [(c & s' & -> & _) _]; destruct (indent_text ind (Z.of_nat m)); discriminate).
  rewrite Nat2Z.inj_add, indent_text_add, <- app_assoc by lia. destruct (indent_text ind (Z.of_nat m) ++ s); [congruence|reflexivity].
Qed.
Lemma proper_indented b : proper_block ind b -> Forall (indented ind) b.
Proof.
  intros (s & b' & -> & P & F). constructor; [|exact F]. right. exists 0, s. split; [destruct ind; reflexivity|exact P].
Qed.
Lemma block_lines_indented ds : Forall (fun l => proper_block ind (side_by_side (ln_word l) (ln_more l))) ds -> forall ss,
  Forall (indented ind) (block_lines ind ss ds).
Proof.
  induction 1 as [|d ds P F IH]; intros ss; [constructor|]. cbn [block_lines]. apply Forall_app. split.
  - destruct ss; [constructor|]. destruct (ln_empty d =? 0); repeat constructor.
  - apply Forall_app. split; [|apply IH]. apply proper_indented in P. apply Forall_forall. intros l I. apply in_map_iff in I as (x & <- & I).
    rewrite Forall_forall in P. apply indented_deeper. auto.
Qed.
Lemma block_lines_proper d ds : Forall (fun l => proper_block ind (side_by_side (ln_word l) (ln_more l))) (d :: ds) ->
  proper_block ind (block_lines ind [] (d :: ds)).
Proof.
  intros F. pose proof (block_lines_indented _ F []) as I. inversion F as [|? ? (s & b' & E & P & FB) F']; subst.
  cbn [block_lines app level] in *. rewrite E in *. cbn [map app] in *.
  assert (Q : indent_line (indent_text ind (Z.of_nat 0)) s = s) by (destruct P as [(c & s' & -> & _) _]; destruct ind; reflexivity).
  exists s, (map (indent_line (indent_text ind (Z.of_nat 0))) b' ++ block_lines ind [ln_col d] ds). cbn [Nat.add]. rewrite Q. split; [reflexivity|]. split; [exact P|].
  inversion I; auto.
Qed.
Lemma indented_no_break l : indented ind l -> ~ In 10%N l /\ ~ In 13%N l.
Proof.
  intros [->|(n & s & -> & [_ [N1 N2]])]; [split; intros []|]. split; intros I; apply in_app_iff in I as [I|I]; auto;
  unfold indent_text in I; destruct ind; apply repeat_spec in I; discriminate.
Qed.
Theorem python_of_lines nl ds : line_end nl -> Forall (fun l => proper_block ind (side_by_side (ln_word l) (ln_more l))) ds ->
  python (join nl (block_lines ind [] ds)) = python_lines (block_lines ind [] ds).
Proof.
  intros NL F. destruct ds as [|d ds]; [reflexivity|]. unfold python. rewrite physical_join; [reflexivity|exact NL| |].
  - pose proof (block_lines_indented _ F []) as I. eapply Forall_impl; [|exact I]. intros l. apply indented_no_break.
  - destruct (block_lines_proper d ds F) as (s & b & -> & _). discriminate.
Qed.

(** Which lines have a structure. *)
Lemma nested_fit (ls : list (nat * list str)) : forall ss es, ss <> [] -> nested (enclosing ss) ls = Some es ->
  forall before c after, ss ++ map fst ls = before ++ c :: after -> length ss <= length before -> may_start before c.
Proof.
  induction ls as [|[c b] ls IH]; intros ss es N H before c0 after E L; cbn [map fst] in *.
  - exfalso. rewrite app_nil_r in E. rewrite E, app_length in L. cbn in L. lia.
  - cbn [nested] in H. destruct (python_lines b) as [x|]; [|discriminate]. pose proof (start_enclosing ss c N) as ST.
    destruct (start_line c (enclosing ss)) as [[pre o]|]; [|discriminate]. destruct ST as (M & -> & _).
    destruct (nested _ ls) as [more|] eqn:NE; [|discriminate].
    destruct (Nat.eq_dec (length ss) (length before)) as [EL|EL].
    + apply app_eq_app in E as (m & [(-> & X)|(-> & X)]); rewrite app_length in *; destruct m; cbn in EL; try lia; rewrite app_nil_r in *; injection X as <- _; exact M.
    + apply (IH (ss ++ [c]) more ltac:(destruct ss; discriminate) NE before c0 after); [rewrite <- app_assoc; exact E|rewrite app_length; cbn; lia].
Qed.
Lemma nested_lines_fit ds es : nested_blocks (at_columns ds) = Some es -> lines_fit ds.
Proof.
  destruct ds as [|d ds]; intros H before c after E N; [destruct before; discriminate|].
  unfold nested_blocks in H. cbn [at_columns map] in H. fold (at_columns ds) in H. cbn [nested] in H.
  destruct (python_lines _); [|discriminate]. unfold start_line in H. rewrite Nat.ltb_irrefl in H. cbn [close_blocks] in H. rewrite Nat.eqb_refl in H. cbn [option_map] in H.
  destruct (nested [ln_col d] (at_columns ds)) as [more|] eqn:NE; [|discriminate].
  apply (nested_fit (at_columns ds) [ln_col d] more ltac:(discriminate) NE before c after).
  - unfold at_columns. rewrite map_map. cbn [map fst app] in *. exact E.
  - destruct before; [congruence|cbn; lia].
Qed.
End Output.
