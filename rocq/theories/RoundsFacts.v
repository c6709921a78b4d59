(** * Lemmas: what control flow in quotes shows. *)
From Verif Require Import Str Tokens SpecTokens TokensRun TokensFacts AlgebraFacts Values ValuesFacts Fmt SpecFmt LayoutFacts RenderFacts
  HistoryFacts OutputFacts WriterFacts SpecFile LangBase HeaderFacts BlockFacts Macro SpecMacro SpecQuote MacroFacts MacroSem MacroTokens MacroLines
  MacroRender MacroControl SpecWords WordsFacts SpecRounds PropsControl.

Section RoundsFacts.
Context {LI E : Type} (ops : lang_ops LI) (cfg : config).
Notation ind := (c_indentation cfg).
Notation doc := (list (node LI)). Notation quoted := (quoted_item LI E).
Notation bare := (map (@HistoryFacts.erase LI)).
Notation atoms_in := (doc_atoms ops cfg).

(** ** Running quotes that show something *)
Lemma shows_quote (x : quoted) e ns e' : shows ops cfg (LOther x) e ns e' <-> quote_shows ops cfg [x] e ns e'.
Proof. reflexivity. Qed.
Lemma quote_runs (qs : list quoted) e e' t : quote qs e = Some (e', t) -> exists its, quote_mean qs e = (its, e') /\ t = from_iter its /\
  forall t0, runs qs (e, t0) = (e', extend its t0).
Proof.
  unfold quote, runs, quote_in. destruct (quote_code qs) as [[r code]|] eqn:Q; [|discriminate]. cbn [option_map snd fst].
  rewrite (quote_supplies _ _ _ Q e new). intros H. injection H as H1 H2. exists (fst (quote_mean qs e)). rewrite <- H1. split; [apply surjective_pairing|].
  split; [symmetry; exact H2|]. intros t0. apply (quote_supplies _ _ _ Q).
Qed.
Lemma extend_visible (y : item LI) its t0 : is_white y = false -> wf t0 ->
  bare (ritems (extend (y :: its) t0)) = bare (ritems (from_iter its)) ++ HistoryFacts.erase y :: bare (ritems t0).
Proof.
  intros NW W0. cbn [extend fold_left]. change (fold_left _ its ?a) with (extend its a). rewrite extend_closed.
  - unfold grafted. cbn [ritems]. rewrite graft_erase. f_equal. destruct y; try discriminate NW; reflexivity.
  - apply add_item_wf. exact W0.
  - unfold closed, items. intros pre z EQ. destruct y; try discriminate NW; cbn in EQ; apply app_inj_tail in EQ as [_ <-]; reflexivity.
Qed.
Lemma body_runs (qs : list quoted) e ns e' : quote_shows ops cfg qs e ns e' -> forall t, wf t -> exists t', runs qs (e, t) = (e', t') /\ wf t' /\
  bare (ritems t') = rev (bare (doc_items ns ++ closing (open_levels ops cfg ns))) ++ bare (ritems t).
Proof.
  intros (((t1 & Q & IT) & (y & its & M & NW)) & _) t W. destruct (quote_runs qs e e' t1 Q) as (its' & M' & -> & R). rewrite M' in M. cbn [fst] in M. subst its'.
  exists (extend (y :: its) t). split; [apply R|]. split; [apply extend_wf; exact W|]. rewrite (extend_visible _ _ _ NW W).
  rewrite <- IT. unfold items. rewrite map_rev, rev_involutive. unfold from_iter at 2. rewrite (extend_visible _ _ _ NW (@new_wf LI)).
  cbn [new ritems map]. rewrite <- app_assoc. reflexivity.
Qed.
Lemma sep_runs (qs : list quoted) e s e' t1 : quote qs e = Some (e', t1) -> items t1 = doc_items s -> forall t, wf t -> closed (items t) ->
  exists t', runs qs (e, t) = (e', t') /\ wf t' /\ bare (ritems t') = rev (bare (doc_items s)) ++ bare (ritems t).
Proof.
  intros Q IT t W C. destruct (quote_runs qs e e' t1 Q) as (its & _ & -> & R). exists (extend its t). split; [apply R|]. split; [apply extend_wf; exact W|].
  rewrite (extend_closed its t W C). unfold grafted. cbn [ritems]. rewrite graft_erase. f_equal. rewrite <- IT. unfold items. rewrite map_rev, rev_involutive. reflexivity.
Qed.
Lemma closed_bare (t : tokens LI) x r : bare (ritems t) = bare (x :: r) -> is_white x = false -> closed (items t).
Proof.
  intros H W pre z EQ. unfold items in EQ. destruct (ritems t) as [|y q]; [discriminate|]. cbn [map] in H. injection H as H _.
  cbn [rev] in EQ. apply app_inj_tail in EQ as [_ <-]. destruct x, y; try discriminate H; try discriminate W; reflexivity.
Qed.
Lemma shown_closed ns (t : tokens LI) r : doc_ok ns = true -> visible_ends (atoms_in ns) -> bare (ritems t) = rev (bare (doc_items ns)) ++ r -> closed (items t).
Proof.
  intros D V H. destruct (last_item ops cfg ns (doc_items ns) D eq_refl V) as (l & z & EZ & NZ). rewrite EZ, map_app, rev_app_distr in H. cbn [map rev app] in H.
  intros pre w EQ. unfold items in EQ. destruct (ritems t) as [|y q]; [discriminate|]. cbn [map] in H. injection H as H _.
  cbn [rev] in EQ. apply app_inj_tail in EQ as [_ <-]. destruct z, y; try discriminate H; try discriminate NZ; reflexivity.
Qed.

(** ** Rounds *)
Definition round_fs (join : option (cursor * list quoted)) (body : list quoted) (bs : list (E -> E)) : list (E * tokens LI -> E * tokens LI) :=
  let fs := map (fun b st => runs body (b (fst st), snd st)) bs in
  match join with Some (paren, js) => intersperse (runs (in_parens (Some paren) js)) fs | None => fs end.
Definition last_doc (ds : list doc) : doc := last ds [].
Lemma items_nodes (its : list (item LI)) : doc_items (map NItem its) = its.
Proof. induction its as [|x its IH]; [reflexivity|]. unfold doc_items in *. cbn. rewrite IH. reflexivity. Qed.
Lemma closing_nodes n : doc_ok (map (@NItem LI) (closing n)) = true /\ atoms_in (map NItem (closing n)) = if Z.eqb n 0 then [] else [AIndent (- n)].
Proof. unfold closing. destruct (Z.eqb n 0); split; reflexivity. Qed.
Lemma closing_open n : open_levels ops cfg (map NItem (closing n)) = (- n)%Z.
Proof. unfold open_levels. rewrite (proj2 (closing_nodes n)). destruct (Z.eqb_spec n 0) as [->|]; cbn; lia. Qed.
Lemma rounds_nonempty join (body : list quoted) bs e ds e' : rounds_show ops cfg join body bs e ds e' -> ds <> [].
Proof. destruct bs as [|b [|b2 bs]], ds as [|d ds]; cbn; auto; discriminate. Qed.
Lemma rounds_run join (body : list quoted) bs : forall e ds e', rounds_show ops cfg join body bs e ds e' -> forall t, wf t ->
  exists t', in_turn (round_fs join body bs) (e, t) = (e', t') /\ wf t' /\
  bare (ritems t') = rev (bare (flat_map doc_items ds ++ closing (open_levels ops cfg (last_doc ds)))) ++ bare (ritems t).
Proof.
  induction bs as [|b bs IH]; intros e ds e' H t W; [destruct H|].
  destruct ds as [|d ds]; [destruct bs; destruct H|]. destruct bs as [|b2 bs].
  - destruct ds as [|s ds]; [|destruct ds; cbn in H; destruct H as (? & ? & _ & _ & [])].
    cbn in H. destruct (body_runs body _ _ _ H t W) as (t' & R & W' & B). exists t'. split; [|split; [exact W'|]].
    + unfold round_fs. destruct join as [[paren js]|]; cbn [map intersperse in_turn fold_left]; exact R.
    + rewrite B. unfold last_doc. cbn [flat_map last]. rewrite app_nil_r. reflexivity.
  - destruct ds as [|s ds]; [destruct H|]. destruct H as (e1 & e2 & H1 & H2 & H3).
    destruct (body_runs body _ _ _ H1 t W) as (t1 & R1 & W1 & B1).
    assert (S : exists t2, in_turn (match join with Some (paren, js) => [runs (in_parens (Some paren) js)] | None => [] end) (e1, t1) = (e2, t2) /\ wf t2 /\
       bare (ritems t2) = rev (bare (doc_items d ++ doc_items s)) ++ bare (ritems t)).
    { destruct join as [[paren js]|].
      - destruct H2 as [(O & t3 & Q & IT & _)|(O & t3 & x & Q & M & XX & ->)].
        2: { destruct (quote_runs _ _ _ _ Q) as (its & M' & _ & R). rewrite M' in M. cbn [fst] in M. subst its. exists (extend [x] t1). split; [exact (R t1)|]. split; [apply extend_wf; exact W1|].
          rewrite items_nodes. unfold closing in *. destruct (Z.eqb_spec (open_levels ops cfg d) 0) as [|_]; [contradiction|].
          rewrite app_assoc, map_app, rev_app_distr. cbn [map rev app]. rewrite <- B1. rewrite map_app, rev_app_distr in B1. cbn [map rev app] in B1.
          destruct (ritems t1) as [|y r] eqn:RT; [discriminate B1|]. cbn [map] in B1. injection B1 as B1 _.
          destruct y; try discriminate B1. destruct XX as [->| ->]; cbn [extend fold_left add_item push line ritems]; unfold push, line; cbn [ritems]; rewrite RT; reflexivity. }
        unfold closing in B1. rewrite O in B1. cbn [Z.eqb] in B1. rewrite app_nil_r in B1.
        destruct H1 as (_ & D & V & _).
        destruct (sep_runs _ _ s _ t3 Q IT t1 W1 (shown_closed d t1 _ D V B1)) as (t2 & R2 & W2 & B2). exists t2. split; [exact R2|]. split; [exact W2|].
        rewrite B2, B1, map_app, rev_app_distr, app_assoc. reflexivity.
      - destruct H2 as (-> & ->). exists t1. split; [reflexivity|]. split; [exact W1|]. rewrite B1, items_nodes. reflexivity. }
    destruct S as (t2 & R2 & W2 & B2). destruct (IH e2 ds e' H3 t2 W2) as (t' & R & W' & B). exists t'. split; [|split; [exact W'|]].
    + revert R R2. unfold round_fs. destruct join as [[paren js]|]; cbn [map]; intros R R2.
      * cbn [map] in R. change (in_turn (intersperse ?s (?x :: ?y :: ?l)) ?st) with (in_turn (intersperse s (y :: l)) (s (x st))). cbn [fst snd]. rewrite R1.
        cbn [in_turn fold_left] in R2. rewrite R2. exact R.
      * change (in_turn (?x :: ?l) ?st) with (in_turn l (x st)). cbn [fst snd]. rewrite R1. cbn [in_turn fold_left] in R2. rewrite R2. exact R.
    + rewrite B, B2. pose proof (rounds_nonempty _ _ _ _ _ _ H3) as NE. unfold last_doc. cbn [flat_map].
      assert (L : last (d :: s :: ds) [] = last ds []) by (destruct ds; [congruence|reflexivity]). rewrite L.
      rewrite !map_app, !rev_app_distr, <- !app_assoc. reflexivity.
Qed.
(** The documents together. *)
Lemma doc_ok_app (a b : doc) : doc_ok (a ++ b) = doc_ok a && doc_ok b.
Proof. apply forallb_app. Qed.
Lemma rounds_docs join (body : list quoted) bs : forall e ds e', rounds_show ops cfg join body bs e ds e' ->
  doc_ok (concat ds) = true /\ visible_ends (atoms_in (concat ds)) /\ (0 <= open_levels ops cfg (concat ds))%Z /\
  open_levels ops cfg (concat ds) = open_levels ops cfg (last_doc ds).
Proof.
  induction bs as [|b bs IH]; intros e ds e' H; [destruct H|].
  destruct ds as [|d ds]; [destruct bs; destruct H|]. destruct bs as [|b2 bs].
  - destruct ds as [|s ds]; [|destruct ds; cbn in H; destruct H as (? & ? & _ & _ & [])].
    cbn in H. destruct H as (_ & D & V & N). cbn [concat last_doc last]. rewrite app_nil_r. auto.
  - destruct ds as [|s ds]; [destruct H|]. destruct H as (e1 & e2 & (_ & D & V & N) & H2 & H3).
    destruct (IH e2 ds e' H3) as (I1 & I2 & I3 & I4). pose proof (rounds_nonempty _ _ _ _ _ _ H3) as NE.
    assert (L : last_doc (d :: s :: ds) = last_doc ds) by (destruct ds; [congruence|reflexivity]). rewrite L. cbn [concat].
    assert (S : doc_ok s = true /\ (open_levels ops cfg d + open_levels ops cfg s = 0)%Z).
    { destruct join as [[paren js]|].
      - destruct H2 as [(O & t & _ & _ & DS & OS)|(O & t & x & _ & _ & XX & ->)]; [split; [exact DS|lia]|].
        rewrite map_app. split; [rewrite doc_ok_app, (proj1 (closing_nodes _)); destruct XX as [->| ->]; reflexivity|].
        pose proof (closing_open (open_levels ops cfg d)) as CO. unfold open_levels in *. unfold doc_atoms in *. rewrite flat_map_app, net_app, CO.
        destruct XX as [->| ->]; cbn; lia.
      - destruct H2 as (-> & _). split; [apply closing_nodes|]. rewrite closing_open. lia. }
    destruct S as [DS OS].
    assert (A : atoms_in (d ++ s ++ concat ds) = atoms_in d ++ atoms_in s ++ atoms_in (concat ds)) by (unfold doc_atoms; rewrite !flat_map_app; reflexivity).
    assert (OL : open_levels ops cfg (d ++ s ++ concat ds) = open_levels ops cfg (concat ds)) by (unfold open_levels in *; rewrite A, !net_app; lia).
    split; [rewrite !doc_ok_app, D, DS, I1; reflexivity|]. split; [|split; congruence].
    rewrite A. destruct V as ((a & l & V1 & V2) & _), I2 as (_ & (l' & z & V3 & V4)). split.
    + exists a, (l ++ atoms_in s ++ atoms_in (concat ds)). rewrite V1. auto.
    + exists (atoms_in d ++ atoms_in s ++ l'), z. rewrite V3, <- !app_assoc. auto.
Qed.

(** ** Where means start *)
Lemma join_start (c0 cs : list (chunk LI)) : forall b y its, join_texts b c0 = y :: its -> is_white y = false ->
  exists y' its', join_texts b (c0 ++ cs) = y' :: its' /\ is_white y' = false.
Proof.
  induction c0 as [|[s|l] c0 IH]; intros b y its H W; cbn [join_texts app] in *.
  - destruct b as [|c b]; [discriminate|]. destruct (join_first cs (c :: b) ltac:(discriminate)) as (s' & r & ->). eexists _, _. split; reflexivity.
  - eapply IH; eassumption.
  - destruct b as [|c b]; [|eexists _, _; split; reflexivity]. destruct l as [|z l]; [|cbn in *; injection H as -> _; eexists _, _; split; [reflexivity|exact W]].
    cbn in *. eapply IH; eassumption.
Qed.
Lemma words_mean (qs : list quoted) c l ts e ns e' : all_tokens qs = (c, l) :: ts -> shows ops cfg l e ns e' ->
  exists y its, fst (quote_mean qs e) = y :: its /\ is_white y = false.
Proof.
  intros AT S. unfold quote_mean, block_mean, block_mean_with. rewrite fold_mean_tokens. pose proof (all_tokens_ok qs) as OK. rewrite AT in *.
  inversion OK as [|? ? O OK']; subst. cbn [fold_left start_of].
  destruct (leaves_append ts OK' (mean_leaf (c, l) (mk_mstate None [] e))) as [cs H]. cbn [fst]. rewrite H. destruct l as [s|x].
  - destruct (shows_text ops cfg _ _ _ _ S) as (NE & _). cbn [mean_leaf fst snd put enter_chunks enter m_place m_chunks adjacent app join_texts].
    destruct (join_first cs s NE) as (s' & r & ->). eexists _, _. split; reflexivity.
  - destruct S as ((_ & (y & its & M & W)) & _). unfold mean_leaf. cbn [snd].
    unfold quote_mean, block_mean, block_mean_with in M. cbn [fold_left start_of fst] in M.
    assert (X : exists y' its', join_texts [] (m_chunks (mean x (mk_mstate None [] e))) = y' :: its' /\ is_white y' = false).
    { destruct (join_texts [] (m_chunks (mean x (mk_mstate None [] e)))) as [|y' its'].
      - exfalso. cbn [app] in M. destruct (depth _ =? 0); [discriminate|]. injection M as <- _. discriminate.
      - cbn in M. injection M as -> _. eauto. }
    destruct X as (y' & its' & X & W'). destruct (join_start _ cs _ _ _ X W') as (y2 & i2 & -> & W2). cbn [app]. eauto.
Qed.

(** Elements put what they supply after the rest. *)
Definition shift (K : list (chunk LI)) (st : mstate LI E) : mstate LI E := mk_mstate (m_place st) (K ++ m_chunks st) (m_env st).
Lemma shift_enter K c st : enter_chunks c (shift K st) = shift K (enter_chunks c st).
Proof. unfold enter_chunks, shift. cbn [m_place m_chunks m_env]. destruct (enter c (m_place st)) as [[p w]|]; cbn [m_place m_chunks m_env]; rewrite ?app_assoc; reflexivity. Qed.
Lemma shift_put K k st : put k (shift K st) = shift K (put k st).
Proof. unfold put, shift. cbn. rewrite app_assoc. reflexivity. Qed.
Lemma shift_items K r st : put_items r (shift K st) = shift K (put_items r st).
Proof. unfold put_items, shift. cbn. rewrite app_assoc. reflexivity. Qed.
Lemma shift_leaf K t st : tok_ok t -> mean_leaf t (shift K st) = shift K (mean_leaf t st).
Proof.
  destruct t as [c [s|x]]; intros O; unfold mean_leaf; cbn [fst snd].
  - rewrite shift_enter, shift_put. reflexivity.
  - destruct O as [O _]. cbn [snd] in O. destruct x; try discriminate O; cbn [mean]; rewrite shift_enter; try (rewrite shift_put; reflexivity); cbn [shift m_env].
    + destruct (fold_left _ ps _) as [[? ?] ?]. rewrite <- shift_items. reflexivity.
    + destruct (v _). rewrite <- shift_items. reflexivity.
    + destruct (code _). rewrite <- shift_items. reflexivity.
    + reflexivity.
    + destruct (it _). rewrite <- shift_items. reflexivity.
    + destruct (cond _). rewrite <- shift_items. reflexivity.
    + destruct (sel _). rewrite <- shift_items. reflexivity.
    + rewrite <- shift_items. reflexivity.
Qed.
Lemma shift_fold K qs st : fold_left (fun st (x : quoted) => mean x st) qs (shift K st) = shift K (fold_left (fun st x => mean x st) qs st).
Proof.
  rewrite !fold_mean_tokens. pose proof (all_tokens_ok qs) as OK. revert st. induction OK as [|t ts O _ IH]; intros st; [reflexivity|].
  cbn [fold_left]. rewrite shift_leaf by exact O. apply IH.
Qed.
Lemma join_empty (cs : list (chunk LI)) : forall b, join_texts b (cs ++ [KText []]) = join_texts b cs.
Proof. induction cs as [|[s|l] cs IH]; intros b; cbn [app join_texts]; [rewrite app_nil_r; reflexivity|apply IH|rewrite IH; reflexivity]. Qed.
Lemma parens_mean paren (qs : list quoted) e : quote_mean (in_parens paren qs) e = block_mean_with mean paren qs e.
Proof.
  destruct paren as [[[r1 c1] [r2 c2]]|]; [|reflexivity]. unfold quote_mean, block_mean, block_mean_with. cbn [in_parens fold_left start_of]. rewrite fold_left_app. cbn [fold_left].
  set (st0 := @mk_mstate LI E (Some (mk_pos r1 (c1 + 1), [c1 + 1])) [] e).
  change (mean (edge (mk_pos r1 (c1 + 1))) (mk_mstate None [] e)) with (shift [KText []] st0). rewrite shift_fold.
  change (mk_mstate _ [] e) with st0. set (st := fold_left (fun st x => mean x st) qs st0).
  change (mean (edge (mk_pos r2 (c2 - 1))) (shift [KText []] st)) with (put (KText []) (enter_chunks (mk_cursor (mk_pos r2 (c2 - 1)) (mk_pos r2 (c2 - 1))) (shift [KText []] st))).
  rewrite shift_enter. change (before_close _) with (mk_pos r2 (c2 - 1)). set (st1 := enter_chunks _ st).
  cbn [put shift m_place m_chunks m_env app]. cbn [join_texts app]. rewrite join_empty. reflexivity.
Qed.

(** ** Blocks *)
Lemma app_visible a l : visible_ends a -> forall first lvl g,
  layout_from ind first lvl g (a ++ l) = layout_from ind first lvl g a ++ layout_from ind false (lvl + net g + net a)%Z [] l.
Proof. intros (_ & (l' & z & -> & V)) first lvl g. apply layout_from_seq. exact V. Qed.
Lemma joint_layout g k j lvl a l : asks g k j -> visible_ends a ->
  layout_from ind false (lvl + k)%Z [] (g ++ a ++ l) =
  match j with Beside n => if n =? 0 then [] else [Ch 32] | Below => [NL] ++ pad ind lvl | Apart => [NL; NL] ++ pad ind lvl end ++
  layout_from ind false lvl [] a ++ layout_from ind false (lvl + net a)%Z [] l.
Proof.
  intros A V. pose proof V as ((x & r & E0 & VX) & _).
  assert (G : layout_from ind false (lvl + k)%Z [] (g ++ a ++ l) = layout_from ind false (lvl + k)%Z g (a ++ l)).
  { destruct A; try reflexivity. }
  rewrite G, (app_visible a l V). rewrite E0 at 1. rewrite (layout_from_first cfg false _ g x r VX), <- E0.
  assert (N : (lvl + k + net g = lvl)%Z) by (destruct A; cbn; lia). rewrite N, <- app_assoc. f_equal.
  unfold separator. destruct A; cbn [existsb a_line a_break orb after_last]; try reflexivity; try (rewrite app_nil_r; reflexivity).
  all: destruct (Z.eqb_spec (- k) 0); [lia|]; cbn; rewrite ?app_nil_r; reflexivity.
Qed.
Notation piece := (list atom * joint * doc)%type.
(** Documents one after the other, with what is asked for before each. *)
Fixpoint follow (d : doc) (more : list piece) : Prop :=
  match more with
  | [] => True
  | (g, j, d') :: more' => asks g (open_levels ops cfg d) j /\ follow d' more'
  end.
Definition pieces_atoms (more : list piece) : list atom :=
  flat_map (fun '(g, _, d) => g ++ atoms_in d) more.
Definition fine (d : doc) : Prop := visible_ends (atoms_in d) /\ steady ops cfg d.
Definition together (d : doc) (more : list piece) : list str :=
  put_together (block_of ops cfg d) (map (fun '(_, j, d) => (j, block_of ops cfg d)) more).
Lemma sound_app a b : a <> [] -> sound b -> sound (a ++ b).
Proof.
  intros NA [NB LB]. split; [destruct a; [congruence|discriminate]|]. destruct (exists_last NB) as (b' & z & ->).
  rewrite last_last in LB. rewrite app_assoc, last_last. exact LB.
Qed.
Lemma lines_break X Y : sym_lines (X ++ NL :: Y) = sym_lines X ++ sym_lines Y.
Proof. rewrite sym_lines_app. cbn [sym_lines]. apply beside_empty, sym_lines_nonempty. Qed.
Lemma together_lines (n : nat) : forall (more : list piece) (d : doc) X A, follow d more -> Forall (fun p => fine (snd p)) more -> sound A ->
  sym_lines X = map (indent_line (indent_text ind (Z.of_nat n))) A ->
  sym_lines (X ++ layout_from ind false (Z.of_nat n + open_levels ops cfg d)%Z [] (pieces_atoms more)) =
  map (indent_line (indent_text ind (Z.of_nat n))) (put_together A (map (fun '(_, j, d) => (j, block_of ops cfg d)) more)).
Proof.
  set (il := indent_line (indent_text ind (Z.of_nat n))).
  induction more as [|[[g j] d'] more IH]; intros d X A FO FI SA HX; [cbn; rewrite app_nil_r; exact HX|].
  destruct FO as [AS FO]. inversion FI as [|? ? [V ST] FI']; subst. cbn [snd] in V, ST.
  change (pieces_atoms ((g, j, d') :: more)) with ((g ++ atoms_in d') ++ pieces_atoms more). rewrite <- app_assoc, (joint_layout g _ j _ _ _ AS V).
  change (net (atoms_in d')) with (open_levels ops cfg d'). rewrite !app_assoc. cbn [map]. change (put_together A ((j, block_of ops cfg d') :: ?m)) with (put_together (put_after A j (block_of ops cfg d')) m).
  destruct (block_sound ops cfg d' V) as [SB HB].
  apply IH; [exact FO|exact FI'| |].
  - destruct j; cbn [put_after]; [apply beside_sound; assumption|apply sound_app; [apply SA|exact SB]|].
    rewrite app_assoc. apply sound_app; [destruct A; discriminate|exact SB].
  - change (layout_from ind false (Z.of_nat n) [] (atoms_in d')) with (shown_at ops cfg (Z.of_nat n) d').
    assert (BL : sym_lines (pad ind (Z.of_nat n) ++ shown_at ops cfg (Z.of_nat n) d') = map il (block_of ops cfg d')) by apply ST.
    destruct j as [k| |]; cbn [put_after].
    + rewrite <- app_assoc, sym_lines_app, HX, sym_lines_app.
      assert (NS : sym_lines (shown_at ops cfg (Z.of_nat n) d') <> []) by apply sym_lines_nonempty.
      assert (GS : sym_lines (if k =? 0 then [] else [Ch 32]) = [if k =? 0 then [] else $" "]) by (destruct (k =? 0); reflexivity).
      assert (NM : map il A <> []) by (destruct SA as [NA _]; destruct A; [congruence|discriminate]).
      rewrite GS, (beside_gap _ _ _ NM NS). rewrite block_shown by auto. destruct SB as [NB _]. destruct (block_of ops cfg d') as [|y b]; [congruence|]. cbn [shift_rest hd] in *.
      apply beside_indent; auto.
    + rewrite <- app_assoc. cbn [app]. rewrite lines_break, HX, BL, map_app. reflexivity.
    + rewrite <- app_assoc. cbn [app]. rewrite lines_break. cbn [sym_lines]. rewrite HX, BL, map_app. reflexivity.
Qed.
Theorem together_block (ns d : doc) (more : list piece) : atoms_in ns = atoms_in d ++ pieces_atoms more ->
  follow d more -> fine d -> Forall (fun p => fine (snd p)) more ->
  steady ops cfg ns /\ block_of ops cfg ns = together d more.
Proof.
  intros EA FO [V ST] FI.
  assert (X : forall n : nat, sym_lines (pad ind (Z.of_nat n) ++ shown_at ops cfg (Z.of_nat n) ns) =
    map (indent_line (indent_text ind (Z.of_nat n))) (together d more)).
  { intros n. unfold shown_at. rewrite EA, (app_visible _ _ V), app_assoc. cbn [net]. rewrite Z.add_0_r. apply together_lines; auto; [apply block_sound; exact V|apply ST]. }
  assert (VN : exists a l, atoms_in ns = a :: l /\ visible a = true) by (destruct V as ((a & l & E0 & VA) & _); rewrite EA, E0; eexists _, _; split; [reflexivity|exact VA]).
  assert (B : block_of ops cfg ns = together d more).
  { unfold block_of. assert (LV : layout ind (atoms_in ns) = layout_from ind false 0 [] (atoms_in ns)).
    { destruct VN as (a & l & -> & VA). unfold layout. rewrite layout_from_first by exact VA.
      assert (P0 : pad ind 0 = []) by (unfold pad; destruct ind; reflexivity). cbn [net separator count_spaces filter length blanks repeat Z.add]. rewrite P0. reflexivity. }
    rewrite LV. specialize (X 0). cbn [Z.of_nat] in X. unfold shown_at in X. rewrite indent_zero in X.
    assert (P0 : pad ind 0 = []) by (unfold pad; destruct ind; reflexivity). rewrite P0 in X. cbn [app] in X. rewrite X.
    rewrite (map_ext _ (fun x => x)), map_id; [reflexivity|intros []; reflexivity]. }
  split; [intros n; rewrite X, B; reflexivity|exact B].
Qed.

(** ** Rounds with the same between them *)
Lemma bodies_length (body : list quoted) bs : forall e ds e', bodies_show ops cfg body bs e ds e' -> Forall (fun d => visible_ends (atoms_in d)) ds.
Proof. induction bs as [|b bs IH]; intros e [|d ds] e' H; try destruct H as []; [constructor|]. destruct H as (H1 & H2). constructor; [apply H1|eapply IH; exact H2]. Qed.
Lemma rounds_joined (body : list quoted) paren js s t : (forall e, quote (in_parens (Some paren) js) e = Some (e, t)) -> items t = doc_items s -> doc_ok s = true -> open_levels ops cfg s = 0%Z ->
  forall bs e ds e', bodies_show ops cfg body bs e ds e' -> ds <> [] -> Forall (fun d => open_levels ops cfg d = 0%Z) ds ->
  rounds_show ops cfg (Some (paren, js)) body bs e (intersperse s ds) e'.
Proof.
  intros Q IT D O bs. induction bs as [|b bs IH]; intros e [|d ds] e' H N F; try (destruct H as []; fail); [congruence|].
  destruct H as (e1 & H1 & H2). inversion F as [|? ? F1 F2]; subst. destruct bs as [|b2 bs].
  - destruct ds; [|destruct H2]. cbn in H2. subst e'. exact H1.
  - destruct ds as [|d2 ds]; [destruct H2|]. change (intersperse s (d :: d2 :: ds)) with (d :: s :: intersperse s (d2 :: ds)).
    exists e1, e1. split; [exact H1|]. split; [left; split; [exact F1|]; exists t; auto|]. apply IH; [exact H2|discriminate|exact F2].
Qed.
(** Rounds that end deeper with a request for a new line after them. *)
Fixpoint closed_with (its : list (item LI)) (ds : list doc) : list doc :=
  match ds with
  | [] => []
  | d :: ds' => d :: match ds' with [] => [] | _ => map NItem (closing (open_levels ops cfg d) ++ its) :: closed_with its ds' end
  end.
Lemma closed_with_cons its d d2 ds : closed_with its (d :: d2 :: ds) = d :: map NItem (closing (open_levels ops cfg d) ++ its) :: closed_with its (d2 :: ds).
Proof. reflexivity. Qed.
Lemma rounds_deeper (body : list quoted) paren js x t : (forall e, quote (in_parens (Some paren) js) e = Some (e, t)) -> (forall e, fst (quote_mean (in_parens (Some paren) js) e) = [x]) ->
  x = Push \/ x = Line ->
  forall bs e ds e', bodies_show ops cfg body bs e ds e' -> ds <> [] -> Forall (fun d => open_levels ops cfg d <> 0%Z) ds ->
  rounds_show ops cfg (Some (paren, js)) body bs e (closed_with [x] ds) e'.
Proof.
  intros Q M X bs. induction bs as [|b bs IH]; intros e [|d ds] e' H N F; try (destruct H as []; fail); [congruence|].
  destruct H as (e1 & H1 & H2). inversion F as [|? ? F1 F2]; subst. destruct bs as [|b2 bs].
  - destruct ds; [|destruct H2]. cbn in H2. subst e'. exact H1.
  - destruct ds as [|d2 ds]; [destruct H2|]. rewrite closed_with_cons.
    exists e1, e1. split; [exact H1|]. split; [right; split; [exact F1|]; exists t, x; auto|]. apply IH; [exact H2|discriminate|exact F2].
Qed.
Lemma last_closed_with its x l d : last (closed_with its (x :: l)) d = last (x :: l) d.
Proof.
  revert x. induction l as [|y l IH]; intros x; [reflexivity|]. rewrite closed_with_cons.
  specialize (IH y). change (last (x :: y :: l) d) with (last (y :: l) d). rewrite <- IH. destruct (closed_with its (y :: l)) eqn:Q; [discriminate Q|reflexivity].
Qed.
Fixpoint closed_after (ds : list doc) : list doc :=
  match ds with
  | [] => []
  | d :: ds' => d :: match ds' with [] => [] | _ => map NItem (closing (open_levels ops cfg d)) :: closed_after ds' end
  end.
Lemma rounds_plain (body : list quoted) : forall bs e ds e', bodies_show ops cfg body bs e ds e' -> ds <> [] ->
  rounds_show ops cfg None body bs e (closed_after ds) e'.
Proof.
  intros bs. induction bs as [|b bs IH]; intros e [|d ds] e' H N; try (destruct H as []; fail); [congruence|].
  destruct H as (e1 & H1 & H2). destruct bs as [|b2 bs].
  - destruct ds; [|destruct H2]. cbn in H2. subst e'. exact H1.
  - destruct ds as [|d2 ds]; [destruct H2|].
    change (closed_after (d :: d2 :: ds)) with (d :: map NItem (closing (open_levels ops cfg d)) :: closed_after (d2 :: ds)).
    exists e1, e1. split; [exact H1|]. split; [split; reflexivity|]. apply IH; [exact H2|discriminate].
Qed.
Lemma atoms_concat (d : doc) ds : atoms_in (concat (d :: ds)) = atoms_in d ++ atoms_in (concat ds).
Proof. cbn [concat]. unfold doc_atoms. rewrite flat_map_app. reflexivity. Qed.
Lemma last_intersperse {A} (s x : A) l d : last (intersperse s (x :: l)) d = last (x :: l) d.
Proof.
  revert x. induction l as [|y l IH]; intros x; [reflexivity|]. change (intersperse s (x :: y :: l)) with (x :: s :: intersperse s (y :: l)).
  specialize (IH y). change (last (x :: y :: l) d) with (last (y :: l) d). rewrite <- IH. destruct (intersperse s (y :: l)) eqn:Q; [destruct l; discriminate Q|reflexivity].
Qed.
Lemma last_closed x l d : last (closed_after (x :: l)) d = last (x :: l) d.
Proof.
  revert x. induction l as [|y l IH]; intros x; [reflexivity|]. change (closed_after (x :: y :: l)) with (x :: map NItem (closing (open_levels ops cfg x)) :: closed_after (y :: l)).
  specialize (IH y). change (last (x :: y :: l) d) with (last (y :: l) d). rewrite <- IH. destruct (closed_after (y :: l)) eqn:Q; [discriminate Q|reflexivity].
Qed.
Lemma joined_atoms (s d : doc) ds : atoms_in (concat (intersperse s (d :: ds))) = atoms_in d ++ flat_map (fun d => atoms_in s ++ atoms_in d) ds.
Proof.
  revert d. induction ds as [|d2 ds IH]; intros d; [cbn [intersperse]; rewrite atoms_concat; reflexivity|].
  change (intersperse s (d :: d2 :: ds)) with (d :: s :: intersperse s (d2 :: ds)). rewrite !atoms_concat, IH. cbn [flat_map]. rewrite <- app_assoc. reflexivity.
Qed.
Fixpoint plain_pieces (k : Z) (ds : list doc) : list piece :=
  match ds with
  | [] => []
  | d :: ds' => ((if Z.eqb k 0 then [] else [AIndent (- k)]), (if Z.eqb k 0 then Beside 0 else Below), d) :: plain_pieces (open_levels ops cfg d) ds'
  end.
Lemma plain_atoms (d : doc) ds : atoms_in (concat (closed_after (d :: ds))) = atoms_in d ++ pieces_atoms (plain_pieces (open_levels ops cfg d) ds).
Proof.
  revert d. induction ds as [|d2 ds IH]; intros d; [cbn [closed_after]; rewrite atoms_concat; reflexivity|].
  change (closed_after (d :: d2 :: ds)) with (d :: map NItem (closing (open_levels ops cfg d)) :: closed_after (d2 :: ds)).
  rewrite !atoms_concat, IH, (proj2 (closing_nodes _)). cbn [plain_pieces]. change (pieces_atoms ((?g, ?j, ?x) :: ?m)) with ((g ++ atoms_in x) ++ pieces_atoms m). rewrite <- app_assoc. reflexivity.
Qed.
Lemma plain_follow ds : forall d : doc, follow d (plain_pieces (open_levels ops cfg d) ds).
Proof.
  induction ds as [|d2 ds IH]; intros d; [exact I|]. cbn [plain_pieces follow]. split; [|apply IH].
  destruct (Z.eqb_spec (open_levels ops cfg d) 0) as [->|N]; [constructor|constructor; exact N].
Qed.
Lemma plain_together ds : forall k, map (fun '(_, j, d) => (j, block_of ops cfg d)) (plain_pieces k ds) = in_sequence ops cfg k ds.
Proof. induction ds as [|d2 ds IH]; intros k; [reflexivity|]. cbn [plain_pieces map in_sequence]. rewrite IH. reflexivity. Qed.
Lemma plain_in ds (P : doc -> Prop) : Forall P ds -> forall k, Forall (fun p => P (snd p)) (plain_pieces k ds).
Proof. induction 1; intros k; constructor; auto. Qed.
End RoundsFacts.
