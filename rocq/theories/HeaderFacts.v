(** * Lemmas: rendering of streams built from documents and whitespace requests,
    followed by another stream. *)
From Verif Require Import Tokens SpecTokens TokensRun Values Fmt SpecFmt RenderFacts LayoutFacts
  HistoryFacts OutputFacts LangBase StringFacts SpecFile.

Section Headers.
Context {LI : Type} (ops : lang_ops LI) (cfg : config).
Notation ind := (c_indentation cfg).

(** Append a document, or request whitespace. *)
Inductive hact : Type :=
| HDoc (ns : list (node LI))
| HReq (a : act).

(** The effect on the items, most recent first. *)
Definition hrun1 (r : list (item LI)) (h : hact) : list (item LI) :=
  match h with
  | HDoc ns => rev (doc_items ns) ++ r
  | HReq a => ritems (run_call (act_call a) (mk_tokens r 0))
  end.
Definition hrun (hs : list hact) (r : list (item LI)) : list (item LI) := fold_left hrun1 hs r.

(** A document that starts and ends with a visible text. *)
Definition good_doc (ns : list (node LI)) : Prop :=
  doc_ok ns = true /\ (exists l x, doc_items ns = l ++ [x] /\ is_white x = false) /\
  visible_ends (doc_atoms ops cfg ns).
Definition good_hact (h : hact) : Prop :=
  match h with
  | HDoc ns => good_doc ns
  | HReq a => forall s, a <> TText s
  end.

(** Output, and the state at the end. *)
Fixpoint hist (first : bool) (lvl : Z) (p : pending) (hs : list hact)
  : list sym * (bool * Z * pending) :=
  match hs with
  | [] => ([], (first, lvl, p))
  | HDoc ns :: hs' =>
      let lvl := (lvl + p_indent p)%Z in
      let l := doc_atoms ops cfg ns in
      let '(out, e) := hist false (lvl + net l)%Z nothing hs' in
      (gap_text ind first lvl p ++ layout_from ind false lvl [] l ++ out, e)
  | HReq a :: hs' => hist first lvl (request a p) hs'
  end.

Lemma layout_from_first first lvl gap a l : visible a = true ->
  layout_from ind first lvl gap (a :: l) =
  separator ind first (lvl + net gap)%Z gap ++ layout_from ind false (lvl + net gap)%Z [] (a :: l).
Proof.
  intros V. unfold visible in V. cbn [layout_from]. destruct (a_text a) as [|c s]; [discriminate|].
  cbn [net]. rewrite Z.add_0_r. reflexivity.
Qed.
Lemma layout_from_seq l : forall first lvl gap a rest, visible a = true ->
  layout_from ind first lvl gap ((l ++ [a]) ++ rest) =
  layout_from ind first lvl gap (l ++ [a]) ++
  layout_from ind false (lvl + net gap + net (l ++ [a]))%Z [] rest.
Proof.
  induction l as [|b l IH]; intros first lvl gap a rest V; cbn [app layout_from].
  - unfold visible in V. destruct (a_text a) as [|c s] eqn:E; [discriminate|].
    assert (N : a_indent a = 0%Z) by (destruct a; cbn in *; congruence).
    cbn [net]. rewrite N, !Z.add_0_r, app_nil_r, <- !app_assoc. reflexivity.
  - destruct (a_text b) as [|c s] eqn:E.
    + rewrite IH by auto. cbn [net]. do 2 f_equal.
      assert (H : forall g, net (g ++ [b]) = (net g + a_indent b)%Z).
      { induction g as [|x g IHg]; cbn [app net]; [lia|]. rewrite IHg. lia. }
      rewrite H. lia.
    + rewrite IH by auto. rewrite <- !app_assoc. cbn [net].
      assert (N : a_indent b = 0%Z) by (destruct b; cbn in *; congruence).
      rewrite N. do 4 f_equal. cbn. lia.
Qed.
Lemma net_app a b : net (a ++ b) = (net a + net b)%Z.
Proof. induction a; cbn [app net]; [lia|]. rewrite IHa. lia. Qed.

Lemma shape_nodes s lines p i :
  doc_items (map NItem (rev (shape s lines p i))) = rev (@shape LI s lines p i) /\
  doc_ok (map NItem (rev (@shape LI s lines p i))) = true /\
  doc_atoms ops cfg (map NItem (rev (shape s lines p i))) = shape_atoms ops s lines p i.
Proof.
  unfold doc_items, doc_ok, doc_atoms, shape_atoms. pose proof (@shape_white LI s lines p i) as W.
  assert (W' : Forall (fun x => is_white x = true) (rev (@shape LI s lines p i))).
  { apply Forall_forall. intros x Hx. apply in_rev in Hx. rewrite Forall_forall in W; auto. }
  clear W. induction W' as [|x l Hx Hl [I1 [I2 I3]]]; [auto|].
  cbn [map flat_map forallb node_items node_ok node_atoms atoms]. rewrite I1, I2, I3.
  split; [reflexivity|]. split; [|reflexivity]. destruct x; auto; discriminate.
Qed.

Lemma hist_run_all hs : Forall good_hact hs -> forall s lines p i base,
  shape_ok lines p -> base_ok base ->
  exists ns s' lines' p' i' base',
    hrun hs (shape s lines p i ++ base) = shape s' lines' p' i' ++ base' /\
    shape_ok lines' p' /\ base_ok base' /\
    rev base' = rev base ++ doc_items ns /\ doc_ok ns = true /\
    (ns = [] \/ exists l a, doc_atoms ops cfg ns = l ++ [a] /\ visible a = true) /\
    (@shape LI s lines p i = [] -> (exists d hs', hs = HDoc d :: hs') -> exists a l, doc_atoms ops cfg ns = a :: l /\ visible a = true) /\
    forall first lvl, exists out first',
    hist first lvl (state_of s lines p i) hs = (out, (first', lvl + net (doc_atoms ops cfg ns), state_of s' lines' p' i'))%Z /\
    forall rest, layout_from ind first lvl [] (doc_atoms ops cfg ns ++ rest) =
                 out ++ layout_from ind first' (lvl + net (doc_atoms ops cfg ns)) [] rest.
Proof.
  induction 1 as [|h hs Hh Hhs IH]; intros s lines p i base OK B.
  - exists [], s, lines, p, i, base. cbn. rewrite app_nil_r. do 6 (split; [auto|]). split; [intros _ (d & hs' & X); discriminate|].
    intros first lvl. exists [], first. rewrite Z.add_0_r. auto.
  - destruct h as [ns|a].
    + destruct Hh as [D [[l0 [x [EI W]]] [V1 V2]]].
      cbn [hrun fold_left hrun1]. change (fold_left hrun1 hs ?r) with (hrun hs r).
      destruct (IH false [] false 0%Z
                  (rev (doc_items ns) ++ shape s lines p i ++ base) I)
        as (ns' & s' & lines' & p' & i' & base' & E1 & E2 & E3 & E4 & E5 & LV & _ & E6).
      { rewrite EI, rev_app_distr. exact W. }
      exists (map NItem (rev (shape s lines p i)) ++ ns ++ ns'), s', lines', p', i', base'.
      destruct (shape_nodes s lines p i) as [S1 [S2 S3]].
      split; [exact E1|]. split; [auto|]. split; [auto|]. split.
      { rewrite E4, !rev_app_distr, rev_involutive. unfold doc_items in *.
        rewrite !flat_map_app, S1, <- !app_assoc. reflexivity. }
      split.
      { unfold doc_ok in *. rewrite !forallb_app, S2, D, E5. auto. }
      unfold doc_atoms in *. rewrite !flat_map_app, S3. split; [|split].
      { right. destruct LV as [->|(l3 & a3 & LV & V3)].
        - destruct V2 as [l2 [b [Eb Vb]]]. cbn [flat_map]. rewrite app_nil_r, Eb. exists (shape_atoms ops s lines p i ++ l2), b. rewrite <- app_assoc. auto.
        - rewrite LV. exists ((shape_atoms ops s lines p i ++ flat_map (node_atoms ops cfg) ns) ++ l3), a3. rewrite <- !app_assoc. auto. }
      { intros SN _. rewrite SN in S3. cbn in S3. rewrite <- S3. cbn [app]. destruct V1 as [a [l1 [Ea Va]]]. rewrite Ea. exists a, (l1 ++ flat_map (node_atoms ops cfg) ns'). auto. }
      intros first lvl. set (lvl1 := (lvl + i)%Z).
      destruct (E6 false (lvl1 + net (flat_map (node_atoms ops cfg) ns))%Z) as (out & first' & E7 & E8).
      exists (gap_text ind first lvl1 (state_of s lines p i) ++
              layout_from ind false lvl1 [] (doc_atoms ops cfg ns) ++ out), first'.
      assert (LL : (lvl + net (shape_atoms ops s lines p i ++ flat_map (node_atoms ops cfg) ns ++ flat_map (node_atoms ops cfg) ns') =
        lvl1 + net (flat_map (node_atoms ops cfg) ns) + net (flat_map (node_atoms ops cfg) ns'))%Z).
      { rewrite !net_app, shape_atoms_net. unfold lvl1. lia. }
      rewrite LL. split.
      { cbn [hist]. cbn [state_of p_indent] in *. fold lvl1. unfold doc_atoms.
        change (state_of false [] false 0) with nothing in E7. rewrite E7. reflexivity. }
      intros rest. rewrite <- !app_assoc.
      rewrite layout_from_invisible by apply shape_invisible. cbn [app].
      destruct V1 as [a [l1 [Ea Va]]]. destruct V2 as [l2 [b [Eb Vb]]].
      rewrite Ea at 1. cbn [app]. rewrite layout_from_first by auto.
      rewrite shape_atoms_net, separator_shape. fold lvl1. f_equal.
      change (a :: l1 ++ ?r) with ((a :: l1) ++ r). rewrite <- Ea. unfold doc_atoms. rewrite Eb.
      rewrite layout_from_seq by auto. f_equal. rewrite <- Eb. rewrite <- E8. f_equal. cbn [net]. lia.
    + destruct (@request_shape LI a s lines p i base OK B Hh) as (s1 & l1 & p1 & i1 & H1 & H2 & H3).
      destruct (IH s1 l1 p1 i1 base H1 B)
        as (ns' & s' & lines' & p' & i' & base' & E1 & E2 & E3 & E4 & E5 & LV & _ & E6).
      exists ns', s', lines', p', i', base'.
      split.
      { cbn [hrun fold_left hrun1]. rewrite H3. exact E1. }
      repeat (split; [assumption|]). split; [intros _ (d & hs' & X); discriminate|].
      intros first lvl. destruct (E6 first lvl) as (out & first' & E7 & E8). exists out, first'. split; [|assumption].
      cbn [hist]. destruct a; try (exfalso; eapply Hh; reflexivity); rewrite H2; exact E7.
Qed.
Lemma hist_run hs : Forall good_hact hs -> forall first lvl s lines p i base,
  shape_ok lines p -> base_ok base ->
  exists ns s' lines' p' i' base' out first' lvl',
    hrun hs (shape s lines p i ++ base) = shape s' lines' p' i' ++ base' /\
    shape_ok lines' p' /\ base_ok base' /\
    rev base' = rev base ++ doc_items ns /\ doc_ok ns = true /\
    hist first lvl (state_of s lines p i) hs = (out, (first', lvl', state_of s' lines' p' i')) /\
    forall rest, layout_from ind first lvl [] (doc_atoms ops cfg ns ++ rest) =
                 out ++ layout_from ind first' lvl' [] rest.
Proof.
  intros G first lvl s lines p i base OK B.
  destruct (hist_run_all hs G s lines p i base OK B) as (ns & s' & lines' & p' & i' & base' & E1 & E2 & E3 & E4 & E5 & _ & _ & E6).
  destruct (E6 first lvl) as (out & first' & E7 & E8). exists ns, s', lines', p', i', base', out, first', (lvl + net (doc_atoms ops cfg ns))%Z. auto 10.
Qed.

(** Blanks pending at the end of a stream that only holds a line break. *)
Lemma pending_line s lines p i : shape_ok lines p ->
  state_of s lines p i = mk_pending 2 false 0 0 -> shape_atoms ops s lines p i = [ALine].
Proof.
  intros OK E. unfold state_of in E. injection E as E1 E2 E3 E4. subst s i.
  rewrite shape_atoms_eq. cbn [Z.eqb app].
  destruct lines as [|b ls].
  { destruct p; cbn in E1; discriminate. }
  unfold count in E3. cbn [filter] in E3. destruct b; [discriminate|].
  destruct ls as [|b2 ls]; cbn in OK; [|destruct OK; discriminate].
  destruct OK as [X | ->]; [discriminate|]. reflexivity.
Qed.
Lemma pending_nothing s lines p i : shape_ok lines p ->
  state_of s lines p i = nothing -> shape_atoms ops s lines p i = [].
Proof.
  intros OK E. unfold state_of, nothing in E. injection E as E1 E2 E3 E4. subst s i.
  rewrite shape_atoms_eq. cbn [Z.eqb app].
  destruct lines as [|b ls]; [|discriminate]. destruct p; [discriminate|]. reflexivity.
Qed.

(** A header ending in a blank line, or empty. *)
Lemma header_run (hs : list hact) (t : tokens LI) (out : list sym) (first : bool) (q : pending) :
  Forall good_hact hs -> ritems t = hrun hs [] ->
  q = nothing /\ first = true \/ q = mk_pending 2 false 0 0 ->
  hist true 0%Z nothing hs = (out, (first, 0%Z, q)) ->
  exists ns, items t = doc_items ns /\ doc_ok ns = true /\
  forall rest, layout ind (doc_atoms ops cfg ns ++ rest) =
    out ++ layout_from ind first 0 (if first then [] else [ALine]) rest.
Proof.
  intros G ET HQ EH.
  destruct (hist_run hs G true 0%Z false [] false 0%Z [] I I)
    as (ns & s' & lines' & p' & i' & base' & out' & first' & lvl' & E1 & E2 & E3 & E4 & E5 & E6 & E7).
  change (state_of false [] false 0) with nothing in E6. rewrite EH in E6.
  injection E6 as <- <- <- E6.
  destruct (shape_nodes s' lines' p' i') as [S1 [S2 S3]].
  exists (ns ++ map NItem (rev (shape s' lines' p' i'))). split.
  { unfold items. rewrite ET. cbn [shape sp app flat_map Z.eqb] in E1. cbn in E1.
    rewrite E1, rev_app_distr, E4. cbn [rev app]. unfold doc_items in *.
    rewrite flat_map_app, S1. reflexivity. }
  split; [unfold doc_ok in *; rewrite forallb_app, E5, S2; auto|].
  intros rest. unfold layout, doc_atoms in *. rewrite flat_map_app, <- app_assoc, S3, E7. f_equal.
  rewrite layout_from_invisible by apply shape_invisible. cbn [app].
  destruct HQ as [[-> ->]| ->].
  - rewrite pending_nothing by auto. reflexivity.
  - rewrite pending_line by auto. destruct first; [|reflexivity].
    assert (K : forall rest g, layout_from ind true 0 (ALine :: g) rest = layout_from ind true 0 g rest).
    { clear. induction rest as [|a rest IH]; intros g; cbn [layout_from]; [reflexivity|].
      destruct (a_text a); [apply (IH (g ++ [a]))|]. reflexivity. }
    apply K.
Qed.

(** ** Lines *)

Lemma hist_app a : forall first lvl p b,
  hist first lvl p (a ++ b) =
  let '(out, (first', lvl', p')) := hist first lvl p a in
  let '(out2, e) := hist first' lvl' p' b in (out ++ out2, e).
Proof.
  induction a as [|h a IH]; intros first lvl p b; cbn [app hist].
  - destruct (hist first lvl p b) as [o e]; auto.
  - destruct h as [ns|x].
    + rewrite IH. destruct (hist false _ nothing a) as [o [[f l] q]].
      destruct (hist f l q b) as [o2 e]. rewrite <- !app_assoc. auto.
    + apply IH.
Qed.

(** Acts that write a text in one line. *)
Definition writes (hs : list hact) (s : str) : Prop :=
  Forall good_hact hs /\ forall first lvl p,
  hist first lvl p hs =
    (gap_text ind first (lvl + p_indent p)%Z p ++ map Ch s, (false, (lvl + p_indent p)%Z, nothing)).

Lemma writes_app a b s1 s2 : writes a s1 -> writes b s2 -> writes (a ++ b) (s1 ++ s2).
Proof.
  intros [G1 H1] [G2 H2]. split; [apply Forall_app; auto|]. intros first lvl p.
  rewrite hist_app, H1, H2. cbn [nothing p_indent]. rewrite Z.add_0_r, map_app.
  unfold gap_text at 2. cbn. rewrite <- !app_assoc. reflexivity.
Qed.
Lemma writes_space a b s1 s2 : writes a s1 -> writes b s2 ->
  writes (a ++ HReq TSpace :: b) (s1 ++ 32%N :: s2).
Proof.
  intros [G1 H1] [G2 H2]. split; [apply Forall_app; split; auto; constructor; auto; discriminate|].
  intros first lvl p. rewrite hist_app, H1. cbn [hist]. rewrite H2. cbn [request nothing p_indent p_breaks p_frozen].
  rewrite Z.add_0_r, map_app. cbn [map]. unfold gap_text at 2. cbn.
  rewrite <- !app_assoc. reflexivity.
Qed.

(** One literal. *)
Definition h_text (s : item_str) : hact := HDoc [NItem (Literal s)].
Lemma gap_text_pad first lvl p : gap_text ind first lvl p = gap_text ind first lvl p. Proof. auto. Qed.
Lemma layout_text_at lvl s : s <> [] -> layout_from ind false lvl [] [AText s] = map Ch s.
Proof.
  intros H. cbn. destruct s as [|c s]; [congruence|]. cbn. rewrite app_nil_r. reflexivity.
Qed.
Lemma writes_text s : content s <> [] -> writes [h_text s] (content s).
Proof.
  intros H. split.
  - constructor; auto. split; [reflexivity|]. split.
    + exists [], (Literal s). auto.
    + split; [exists (AText (content s)), []|exists [], (AText (content s))]; split; auto;
        unfold visible; cbn; destruct (content s); congruence.
  - intros first lvl p. cbn [hist h_text]. unfold doc_atoms. cbn [flat_map node_atoms atoms_of app].
    rewrite layout_text_at by auto. cbn [net a_indent]. rewrite app_nil_r, !Z.add_0_r. reflexivity.
Qed.

(** A quoted string. *)
Definition h_quoted (s : item_str) : hact := HDoc [NString false [PItem (Literal s)]].
Lemma layout_texts_at lvl ss : layout_from ind false lvl [] (texts ss) = map Ch (concat ss).
Proof.
  assert (G : forall ss lvl gap, Forall (fun a => a = AText []) gap ->
     layout_from ind false lvl gap (texts ss) = map Ch (concat ss)); [|apply G; auto].
  clear lvl ss. induction ss as [|s ss IH]; intros lvl gap F; cbn [texts map concat]; [reflexivity|].
  cbn [layout_from a_text]. destruct s as [|c s].
  - apply IH. apply Forall_app; auto.
  - assert (N : net gap = 0%Z) by (induction F as [|? ? -> F IHF]; cbn; auto).
    assert (B : existsb a_break gap = false /\ existsb a_line gap = false /\ count_spaces gap = 0).
    { clear - F. induction F as [|? ? -> F [? [? ?]]]; cbn; auto. }
    destruct B as [B1 [B2 B3]]. rewrite N. unfold separator. rewrite B1, B2, B3.
    rewrite map_app. cbn [blanks repeat app]. f_equal. apply IH; auto.
Qed.
Lemma net_texts ss : net (texts ss) = 0%Z.
Proof. unfold texts. induction ss; cbn; auto. Qed.
Lemma writes_quoted s :
  l_open_quote ops false = [[34%N]] -> l_close_quote ops false = [[34%N]] ->
  writes [h_quoted s] (34%N :: concat (l_write_quoted ops (content s)) ++ [34%N]).
Proof.
  intros Q1 Q2.
  assert (A : doc_atoms ops cfg [NString false [PItem (Literal s)]] =
              texts ([[34%N]] ++ l_write_quoted ops (content s) ++ [[34%N]])).
  { unfold doc_atoms. cbn [flat_map]. rewrite node_atoms_string. cbn [flat_map part_atoms string_item].
    unfold texts. rewrite !app_nil_r, Q1, Q2, !map_app. reflexivity. }
  split.
  - constructor; auto. split; [reflexivity|]. split.
    + exists [OpenQuote false; Literal s], CloseQuote. auto.
    + rewrite A. unfold texts. split.
      * eexists _, _. cbn. split; reflexivity.
      * exists (map AText ([[34%N]] ++ l_write_quoted ops (content s))), (AText [34%N]).
        rewrite app_assoc, map_app. split; reflexivity.
  - intros first lvl p. cbn [hist h_quoted]. rewrite A, layout_texts_at, net_texts.
    rewrite app_nil_r, Z.add_0_r. rewrite !concat_app. reflexivity.
Qed.

(** Composition. *)
Lemma writes_eq hs s s' : writes hs s -> s = s' -> writes hs s'.
Proof. intros H <-. exact H. Qed.
Lemma w_text s hs r : content s <> [] -> writes hs r -> writes (h_text s :: hs) (content s ++ r).
Proof. intros H1 H2. apply (writes_app [h_text s] hs); auto using writes_text. Qed.
Lemma w_text_space s hs r : content s <> [] -> writes hs r ->
  writes (h_text s :: HReq TSpace :: hs) (content s ++ 32%N :: r).
Proof. intros H1 H2. apply (writes_space [h_text s] hs); auto using writes_text. Qed.
Section Quoted.
Hypothesis Q : l_open_quote ops false = [[34%N]] /\ l_close_quote ops false = [[34%N]].
Definition quoted_text (s : str) : str := 34%N :: concat (l_write_quoted ops s) ++ [34%N].
Lemma w_quoted s : writes [h_quoted s] (quoted_text (content s)).
Proof. destruct Q. apply writes_quoted; auto. Qed.
Lemma w_quoted_cons s hs r : writes hs r -> writes (h_quoted s :: hs) (quoted_text (content s) ++ r).
Proof. intros H2. apply (writes_app [h_quoted s] hs); auto using w_quoted. Qed.
Lemma w_quoted_space s hs r : writes hs r ->
  writes (h_quoted s :: HReq TSpace :: hs) (quoted_text (content s) ++ 32%N :: r).
Proof. intros H2. apply (writes_space [h_quoted s] hs); auto using w_quoted. Qed.
End Quoted.

(** ** Sequences of lines *)

Fixpoint join_lines (lines : list str) : list sym :=
  match lines with
  | [] => []
  | [l] => map Ch l
  | l :: ls => map Ch l ++ NL :: join_lines ls
  end.

(** Each line followed by a push. *)
Lemma hist_each_push (ls : list (list hact * str)) :
  Forall (fun p => writes (fst p) (snd p)) ls -> forall first q, ls <> [] ->
  p_indent q = 0%Z ->
  hist first 0 q (flat_map (fun p => fst p ++ [HReq TPush]) ls) =
  (gap_text ind first 0 q ++ join_lines (map snd ls), (false, 0%Z, mk_pending 1 false 0 0)).
Proof.
  induction 1 as [|[h s] ls [G H] F IH]; intros first q NE Q; [congruence|].
  cbn [flat_map fst snd map] in *. rewrite hist_app, hist_app, H, Q. cbn [hist request nothing].
  change (mk_pending (Nat.max 0 1) false 0 0) with (mk_pending 1 false 0 0).
  rewrite app_nil_r. destruct ls as [|[h2 s2] ls].
  - cbn. rewrite app_nil_r. reflexivity.
  - cbn [nothing p_breaks p_frozen p_indent]. change (Nat.max 0 1) with 1.
    rewrite IH by (auto; discriminate). cbn [map snd join_lines]. rewrite <- !app_assoc. 
    unfold gap_text at 2. cbn [p_space p_breaks Nat.eqb repeat]. 
    unfold pad. change (Z.to_nat (Z.max 0 0)) with 0. destruct ind; reflexivity.
Qed.

(** Each line preceded by a push. *)
Lemma hist_push_each (ls : list (list hact * str)) :
  Forall (fun p => writes (fst p) (snd p)) ls -> forall first q, ls <> [] ->
  p_indent q = 0%Z ->
  hist first 0 q (flat_map (fun p => HReq TPush :: fst p) ls) =
  (gap_text ind first 0 (request TPush q) ++ join_lines (map snd ls), (false, 0%Z, nothing)).
Proof.
  induction 1 as [|[h s] ls [G H] F IH]; intros first q NE Q; [congruence|].
  cbn [flat_map fst snd map app] in *. cbn [hist]. rewrite hist_app, H.
  assert (Q' : p_indent (request TPush q) = 0%Z) by auto. rewrite Q'.
  destruct ls as [|[h2 s2] ls].
  - cbn. rewrite app_nil_r. reflexivity.
  - cbn [Z.add]. rewrite IH by (auto; discriminate). cbn [map snd join_lines]. rewrite <- !app_assoc.
    unfold gap_text at 2. cbn [request nothing p_breaks p_frozen p_indent p_space Nat.max Nat.eqb repeat].
    unfold pad. change (Z.to_nat (Z.max 0 0)) with 0. destruct ind; reflexivity.
Qed.
Lemma each_push_good (ls : list (list hact * str)) : Forall (fun p => writes (fst p) (snd p)) ls ->
  Forall good_hact (flat_map (fun p => fst p ++ [HReq TPush]) ls).
Proof.
  induction 1 as [|[h s] ls [G _] F IH]; cbn [flat_map]; auto. rewrite !Forall_app. repeat split; auto.
  constructor; auto. discriminate.
Qed.
Lemma push_each_good (ls : list (list hact * str)) : Forall (fun p => writes (fst p) (snd p)) ls ->
  Forall good_hact (flat_map (fun p => HReq TPush :: fst p) ls).
Proof.
  induction 1 as [|[h s] ls [G _] F IH]; cbn [flat_map]; auto. rewrite Forall_app. split; auto.
  constructor; auto. discriminate.
Qed.
End Headers.
Arguments HDoc {LI}. Arguments HReq {LI}.
