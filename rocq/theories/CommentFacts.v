(** * Lemmas: comments. *)
From Verif Require Import Str Tokens SpecTokens TokensRun TokensFacts Values Fmt SpecFmt RenderFacts LayoutFacts
  HistoryFacts OutputFacts LangBase StringFacts SpecFile HeaderFacts SpecComment.

Section Comments.
Context {LI : Type} (ops : lang_ops LI) (cfg : config).
Notation ind := (c_indentation cfg).
Notation lay := (layout_from ind).

(** ** Histories as header acts *)
Definition to_h (a : act) : @hact LI := match a with TText s => h_text (Box s) | a => HReq a end.
Lemma to_h_good h : texts_not_empty h -> Forall (good_hact ops cfg) (map to_h h).
Proof.
  intros N. apply Forall_forall. intros x H. apply in_map_iff in H as [a [<- H]].
  destruct a; try discriminate. cbn [to_h]. destruct (writes_text ops cfg (Box s) (N s H)) as [G _].
  inversion G; auto.
Qed.
Lemma to_h_run h : forall r la, exists la', run (map act_call h) (mk_tokens r la) = mk_tokens (hrun (map to_h h) r) la'.
Proof.
  induction h as [|a h IH]; intros r la; [exists la; reflexivity|].
  cbn [map run fold_left hrun]. change (fold_left _ (map act_call h) ?x) with (run (map (@act_call LI) h) x).
  change (fold_left (hrun1) (map to_h h) ?x) with (hrun (map to_h h) x).
  destruct a; try apply IH; cbn [act_call run_call hrun1 to_h].
  - destruct r as [|[] r]; apply IH.
Qed.
Lemma hist_history h : texts_not_empty h -> forall first lvl p, exists out first' lvl' p',
  hist ops cfg first lvl p (map to_h h) = (out, (first', lvl', p')) /\
  forall h', history_from ind first lvl p (h ++ h') = out ++ history_from ind first' lvl' p' h'.
Proof.
  induction h as [|a h IH]; intros N first lvl p; [cbn; eauto 7|].
  assert (N' : texts_not_empty h) by (intros s H; apply N; right; auto).
  destruct a as [s| | | | |].
  - destruct (writes_text ops cfg (Box s) (N s (or_introl eq_refl))) as [_ W].
    destruct (IH N' false (lvl + p_indent p)%Z nothing) as (out & f & l & q & E1 & E2).
    exists (gap_text ind first (lvl + p_indent p) p ++ map Ch s ++ out), f, l, q. split.
    + cbn [map]. change (to_h (TText s)) with (@h_text LI (Box s)).
      change (h_text (Box s) :: map to_h h) with ([@h_text LI (Box s)] ++ map to_h h). rewrite hist_app, W, E1.
      rewrite <- app_assoc. reflexivity.
    + intros h'. cbn [app history_from]. rewrite E2, <- !app_assoc. reflexivity.
  - apply (IH N' first lvl (request TSpace p)).
  - apply (IH N' first lvl (request TPush p)).
  - apply (IH N' first lvl (request TLine p)).
  - apply (IH N' first lvl (request TIndent p)).
  - apply (IH N' first lvl (request TUnindent p)).
Qed.

(** ** Invisible texts at the end of a line *)
Definition tail_ok (g : list atom) : Prop := g = [] \/ g = [ASpace; AText []].
Lemma after_last_app {A} (p : A -> bool) a b : existsb p b = true -> after_last p (a ++ b) = after_last p b.
Proof.
  intros H. induction a as [|x a IH]; cbn; auto. rewrite existsb_app, H, orb_true_r. auto.
Qed.
Lemma tail_gap g : tail_ok g -> forall l lvl gap,
  match lay false lvl gap l with [] | NL :: _ => True | _ => False end ->
  lay false lvl (g ++ gap) l = lay false lvl gap l.
Proof.
  intros T. induction l as [|a l IH]; intros lvl gap H; auto. cbn [layout_from] in *.
  destruct (a_text a) as [|c s] eqn:E.
  - rewrite <- app_assoc. apply IH. exact H.
  - assert (N : net (g ++ gap) = net gap) by (destruct T as [->| ->]; reflexivity).
    rewrite N. f_equal. destruct T as [->| ->]; auto.
    set (lv := (lvl + net gap)%Z) in *. unfold separator in *.
    assert (X : existsb a_line ([ASpace; AText []] ++ gap) = existsb a_line gap) by reflexivity.
    assert (Y : existsb a_break ([ASpace; AText []] ++ gap) = existsb a_break gap) by reflexivity.
    rewrite X, Y. destruct (existsb a_line gap) eqn:EL; [rewrite after_last_app by auto; auto|].
    destruct (existsb a_break gap) eqn:EB; [rewrite after_last_app by auto; auto|].
    exfalso. unfold blanks in H. destruct (count_spaces gap); cbn in H; auto.
Qed.

(** ** States: the stream ends with a text *)
Definition ends_in (r : list (item LI)) (out : list sym) (lvl : Z) (g : list atom) : Prop :=
  base_ok r /\ tail_ok g /\ exists ns, rev r = doc_items ns /\ doc_ok ns = true /\
  forall rest, layout ind (doc_atoms ops cfg ns ++ rest) = out ++ lay false lvl g rest.
Lemma state_nothing s lines p i : shape_ok lines p -> state_of s lines p i = nothing -> @shape LI s lines p i = [].
Proof.
  intros OK E. unfold state_of, nothing in E. injection E as E1 E2 E3 E4. subst s i.
  destruct lines as [|b ls]; [|discriminate]. destruct p; [discriminate|]. reflexivity.
Qed.
Lemma ends_start hs out lvl : Forall (good_hact ops cfg) hs ->
  hist ops cfg true 0%Z nothing hs = (out, (false, lvl, nothing)) -> ends_in (hrun hs []) out lvl [].
Proof.
  intros G EH.
  destruct (hist_run ops cfg hs G true 0%Z false [] false 0%Z [] I I)
    as (ns & s' & lines' & p' & i' & base' & out' & first' & lvl' & E1 & E2 & E3 & E4 & E5 & E6 & E7).
  change (state_of false [] false 0) with nothing in E6. rewrite EH in E6.
  assert (Q : forall (a a' : list sym) (b b' : bool) (c c' : Z) (d d' : pending),
    (a, (b, c, d)) = (a', (b', c', d')) -> a' = a /\ b' = b /\ c' = c /\ d' = d) by (intros; split; [|split; [|split]]; congruence).
  apply Q in E6 as (-> & -> & -> & E6).
  change (shape false [] false 0 ++ []) with (@nil (item LI)) in E1.
  rewrite E1, state_nothing by auto. cbn [app]. split; [exact E3|]. split; [left; auto|].
  exists ns. split; [rewrite E4; reflexivity|]. split; auto.
Qed.
Lemma ends_step hs out out2 lvl lvl2 r g : ends_in r out lvl g -> Forall (good_hact ops cfg) hs ->
  hist ops cfg false lvl nothing hs = (out2, (false, lvl2, nothing)) ->
  (g = [] \/ match out2 with NL :: _ => True | _ => False end) ->
  ends_in (hrun hs r) (out ++ out2) lvl2 [].
Proof.
  intros (B & T & ns & D1 & D2 & D3) G EH NL2.
  destruct (hist_run ops cfg hs G false lvl false [] false 0%Z r I B)
    as (ns' & s' & lines' & p' & i' & base' & out' & first' & lvl' & E1 & E2 & E3 & E4 & E5 & E6 & E7).
  change (state_of false [] false 0) with nothing in E6. rewrite EH in E6.
  assert (Q : forall (a a' : list sym) (b b' : bool) (c c' : Z) (d d' : pending),
    (a, (b, c, d)) = (a', (b', c', d')) -> a' = a /\ b' = b /\ c' = c /\ d' = d) by (intros; split; [|split; [|split]]; congruence).
  apply Q in E6 as (-> & -> & -> & E6).
  change (shape false [] false 0 ++ r) with r in E1.
  rewrite E1, state_nothing by auto. cbn [app]. split; [exact E3|]. split; [left; auto|].
  exists (ns ++ ns'). unfold doc_items, doc_ok, doc_atoms in *.
  split; [rewrite flat_map_app; cbn [app]; congruence|]. split; [rewrite forallb_app, D2, E5; auto|].
  intros rest. rewrite flat_map_app, <- !app_assoc, D3. f_equal. rewrite <- E7.
  destruct NL2 as [->|NL2]; auto. rewrite <- (app_nil_r g). apply tail_gap; auto.
  rewrite E7. destruct out2 as [|[] ?]; auto; destruct NL2.
Qed.
(** The end: whatever follows. *)
Lemma ends_last hs out out2 e lvl (t : tokens LI) r g : ends_in r out lvl g -> Forall (good_hact ops cfg) hs ->
  hist ops cfg false lvl nothing hs = (out2, e) ->
  (g = [] \/ match out2 with [] | NL :: _ => True | _ => False end) ->
  ritems t = hrun hs r ->
  exists ns, items t = doc_items ns /\ doc_ok ns = true /\ layout ind (doc_atoms ops cfg ns) = out ++ out2.
Proof.
  intros (B & T & ns & D1 & D2 & D3) G EH NL2 ET.
  destruct (hist_run ops cfg hs G false lvl false [] false 0%Z r I B)
    as (ns' & s' & lines' & p' & i' & base' & out' & first' & lvl' & E1 & E2 & E3 & E4 & E5 & E6 & E7).
  change (state_of false [] false 0) with nothing in E6. rewrite EH in E6. injection E6 as <- E6.
  change (shape false [] false 0 ++ r) with r in E1.
  destruct (shape_nodes ops cfg s' lines' p' i') as [S1 [S2 S3]].
  exists (ns ++ ns' ++ map NItem (rev (shape s' lines' p' i'))). split.
  { unfold items. rewrite ET, E1, rev_app_distr, E4, D1. unfold doc_items in *. rewrite !flat_map_app, S1, <- !app_assoc. reflexivity. }
  split; [unfold doc_ok in *; rewrite !forallb_app, D2, E5, S2; auto|].
  unfold doc_atoms in *. rewrite flat_map_app, D3, flat_map_app, S3. f_equal.
  assert (E : lay false lvl [] (flat_map (node_atoms ops cfg) ns' ++ shape_atoms ops s' lines' p' i') = out2).
  { rewrite E7. rewrite <- (app_nil_r (shape_atoms ops s' lines' p' i')), layout_from_invisible by apply shape_invisible.
    cbn. apply app_nil_r. }
  destruct NL2 as [->|NL2]; auto. rewrite <- (app_nil_r g), tail_gap; auto. rewrite E. exact NL2.
Qed.

(** ** Rows of a comment *)
Record row : Type := mk_row { w_lead : bool; w_prefix : item_str; w_tail : option item_str }.
Definition row_text (w : row) : str :=
  (if w_lead w then $" " else []) ++
  match w_tail w with Some l => comment_line (content (w_prefix w)) l | None => content (w_prefix w) end.
Definition row_head (w : row) : list (@hact LI) :=
  HReq TPush :: (if w_lead w then [HReq TSpace] else []) ++ [h_text (w_prefix w)].
Definition row_items (w : row) (r : list (item LI)) : list (item LI) :=
  match w_tail w with
  | Some l => Literal l :: Space :: r
  | None => r
  end.
Definition row_run (r : list (item LI)) (w : row) : list (item LI) := row_items w (hrun (row_head w) r).

Lemma hist_req first lvl p a hs : hist ops cfg first lvl p (HReq a :: hs) = hist ops cfg first lvl (request a p) hs.
Proof. reflexivity. Qed.
Lemma row_head_hist w first lvl p : content (w_prefix w) <> [] ->
  Forall (good_hact ops cfg) (row_head w) /\
  hist ops cfg first lvl p (row_head w) =
  (gap_text ind first (lvl + p_indent p) (request TPush p) ++ map Ch ((if w_lead w then $" " else []) ++ content (w_prefix w)),
   (false, (lvl + p_indent p)%Z, nothing)).
Proof.
  intros N. destruct (writes_text ops cfg (w_prefix w) N) as [G W].
  unfold row_head. split.
  - constructor; [discriminate|]. apply Forall_app. split; auto. destruct (w_lead w); repeat constructor; discriminate.
  - destruct (w_lead w); cbn [app]; rewrite ?hist_req.
    + rewrite W. cbn [request p_indent p_breaks p_frozen p_space]. f_equal.
      rewrite map_app, app_assoc. f_equal. unfold gap_text. cbn [p_space p_breaks p_frozen].
      replace (Nat.max (p_breaks p) 1 =? 0) with false by (destruct (p_breaks p) as [|[]]; reflexivity).
      destruct first; rewrite <- ?app_assoc; do 2 f_equal.
      unfold blanks. rewrite Nat.add_0_r, repeat_app. reflexivity.
    + rewrite W. reflexivity.
Qed.
Lemma row_tail w r out lvl : ends_in r out lvl [] -> exists g,
  ends_in (row_items w r)
    (out ++ map Ch (match w_tail w with Some l => match content l with [] => [] | s => $" " ++ s end | None => [] end)) lvl g /\
  ((forall l, w_tail w = Some l -> content l <> []) -> g = []).
Proof.
  intros E. unfold row_items. destruct (w_tail w) as [l|]; [|exists []; cbn; rewrite app_nil_r; auto].
  destruct (content l) as [|c s] eqn:C.
  - exists [ASpace; AText []]. split; [|intros X; exfalso; apply (X l); auto].
    destruct E as (B & T & ns & D1 & D2 & D3). split; [reflexivity|]. split; [right; auto|].
    exists (ns ++ [NItem Space; NItem (Literal l)]). unfold doc_items, doc_ok, doc_atoms in *.
    split; [rewrite flat_map_app; cbn [rev]; rewrite D1, <- app_assoc; reflexivity|].
    split; [rewrite forallb_app, D2; reflexivity|].
    intros rest. rewrite flat_map_app, <- app_assoc, D3, app_nil_r. f_equal.
    cbn. rewrite C. reflexivity.
  - exists []. split; auto.
    assert (N : content l <> []) by congruence.
    destruct (writes_text ops cfg l N) as [G W].
    change (Literal l :: Space :: r) with (hrun [HDoc [NItem Space]; h_text l] r).
    assert (X : hrun [@HDoc LI [NItem Space]; h_text l] r = hrun [HReq TSpace; h_text l] r).
    { destruct E as (B & _). destruct r as [|x r]; [reflexivity|]. destruct x; try reflexivity; discriminate. }
    rewrite X. eapply ends_step; [exact E| |  |left; auto].
    + constructor; [discriminate|auto].
    + rewrite hist_req, W. cbn [request nothing p_indent p_breaks p_frozen p_space]. rewrite Z.add_0_r, C.
      unfold gap_text. cbn. reflexivity.
Qed.
(** A row after a text. *)
Lemma row_step w r out lvl g : content (w_prefix w) <> [] -> ends_in r out lvl g -> exists g',
  ends_in (row_run r w) (out ++ (NL :: pad ind lvl) ++ map Ch (row_text w)) lvl g' /\
  ((forall l, w_tail w = Some l -> content l <> []) -> g' = []).
Proof.
  intros N E. destruct (row_head_hist w false lvl nothing N) as [G H].
  assert (E1 : ends_in (hrun (row_head w) r) (out ++ (NL :: pad ind lvl) ++ map Ch ((if w_lead w then $" " else []) ++ content (w_prefix w))) lvl []).
  { eapply ends_step; [exact E|exact G| |right; exact I].
    rewrite H. cbn [nothing p_indent request p_breaks p_frozen p_space]. rewrite Z.add_0_r. unfold gap_text. cbn. rewrite app_nil_r. reflexivity. }
  destruct (row_tail w _ _ _ E1) as (g' & E2 & X). exists g'. split; auto.
  replace (out ++ (NL :: pad ind lvl) ++ map Ch (row_text w)) with
    ((out ++ (NL :: pad ind lvl) ++ map Ch ((if w_lead w then $" " else []) ++ content (w_prefix w))) ++
     map Ch match w_tail w with Some l => match content l with [] => [] | s => $" " ++ s end | None => [] end); auto.
  rewrite <- !app_assoc. do 2 f_equal. rewrite <- map_app. f_equal. unfold row_text. rewrite <- app_assoc. f_equal.
  unfold comment_line. destruct (w_tail w) as [l|]; [|apply app_nil_r]. destruct (content l); [apply app_nil_r|reflexivity].
Qed.
Lemma rows_step ws : Forall (fun w => content (w_prefix w) <> []) ws -> forall r out lvl g, ends_in r out lvl g -> exists g',
  ends_in (fold_left row_run ws r) (out ++ flat_map (fun w => (NL :: pad ind lvl) ++ map Ch (row_text w)) ws) lvl g'.
Proof.
  induction 1 as [|w ws N F IH]; intros r out lvl g E; [cbn; rewrite app_nil_r; eauto|].
  destruct (row_step w r out lvl g N E) as (g1 & E1 & _). destruct (IH _ _ _ _ E1) as (g2 & E2).
  exists g2. cbn [fold_left flat_map]. rewrite app_assoc. exact E2.
Qed.
Lemma history_rows ws : forall lvl h, history_from ind false lvl nothing (own_lines (map row_text ws) ++ h) =
  flat_map (fun w => (NL :: pad ind lvl) ++ map Ch (row_text w)) ws ++ history_from ind false lvl nothing h.
Proof.
  induction ws as [|w ws IH]; intros lvl h; [reflexivity|].
  cbn [map own_lines flat_map app history_from]. cbn [request nothing p_breaks p_space p_frozen p_indent Nat.max]. rewrite Z.add_0_r.
  change (flat_map (fun l => [TPush; TText l]) (map row_text ws)) with (own_lines (map row_text ws)). rewrite IH.
  unfold gap_text. cbn [p_space p_breaks Nat.eqb repeat app blanks]. rewrite app_nil_r, <- !app_assoc. reflexivity.
Qed.

(** The next text starts a line: so does the output. *)
Lemma next_out h lvl : texts_not_empty h -> next_starts_line h ->
  match history_from ind false lvl nothing h with [] | NL :: _ => True | _ => False end.
Proof.
  intros _ NS. unfold next_starts_line in NS. 
  assert (H : forall h p lvl, (forall ws s h', h = ws ++ TText s :: h' -> (forall s', ~ In (TText s') ws) ->
     0 < p_breaks (fold_left (fun p a => request a p) ws p)) ->
     match history_from ind false lvl p h with [] | NL :: _ => True | _ => False end).
  { clear. induction h as [|a h IH]; intros p lvl H; [exact I|]. 
    assert (K : (forall s, a <> TText s) -> match history_from ind false lvl (request a p) h with [] | NL :: _ => True | _ => False end).
    { intros NT. apply IH. intros ws s h' -> X. apply (H (a :: ws) s h' eq_refl). intros s' [E|E]; [apply (NT s' E)|apply (X s' E)]. }
    destruct a as [s| | | | |]; try (apply K; discriminate).
    cbn [history_from]. specialize (H [] s h eq_refl (fun _ x => x)). cbn in H. unfold gap_text.
    destruct (p_breaks p) as [|n]; [inversion H|]. exact I. }
  apply H, NS.
Qed.

Lemma comment_rows ws h1 h2 (t : tokens LI) : texts_not_empty h1 -> texts_not_empty h2 -> next_starts_line h2 ->
  Forall (fun w => content (w_prefix w) <> []) ws -> ws <> [] ->
  ritems t = hrun (map to_h h2) (fold_left row_run ws (hrun (map to_h h1) [])) ->
  exists ns, items t = doc_items ns /\ doc_ok ns = true /\
    layout ind (doc_atoms ops cfg ns) = history_layout ind (h1 ++ own_lines (map row_text ws) ++ h2).
Proof.
  intros N1 N2 NS F NE ET. destruct ws as [|w ws]; [congruence|]. inversion F as [|? ? NW F']; subst.
  destruct (hist_history h1 N1 true 0%Z nothing) as (out1 & f1 & l1 & p1 & E1 & K1).
  destruct (row_head_hist w f1 l1 p1 NW) as [G H].
  assert (S1 : ends_in (hrun (row_head w) (hrun (map to_h h1) []))
     (out1 ++ gap_text ind f1 (l1 + p_indent p1) (request TPush p1) ++ map Ch ((if w_lead w then $" " else []) ++ content (w_prefix w)))
     (l1 + p_indent p1) []).
  { unfold hrun at 1 2. rewrite <- fold_left_app. change (fold_left hrun1 ?a ?b) with (hrun a b).
    apply ends_start; [apply Forall_app; split; [apply to_h_good|]; auto|].
    rewrite hist_app, E1, H. reflexivity. }
  destruct (row_tail w _ _ _ S1) as (g & S2 & _). fold (row_run (hrun (map to_h h1) []) w) in S2.
  destruct (rows_step ws F' _ _ _ _ S2) as (g2 & S3).
  destruct (hist_history h2 N2 false (l1 + p_indent p1)%Z nothing) as (out2 & f2 & l2 & p2 & E2 & K2).
  destruct (ends_last _ _ _ _ _ t _ _ S3 (to_h_good h2 N2) E2) as (ns & A1 & A2 & A3); auto.
  { right. pose proof (next_out h2 (l1 + p_indent p1)%Z N2 NS) as X. specialize (K2 []). rewrite app_nil_r in K2. rewrite K2 in X.
    cbn in X. rewrite app_nil_r in X. exact X. }
  exists ns. split; auto. split; auto. rewrite A3. unfold history_layout. rewrite K1.
  cbn [map own_lines flat_map app history_from]. change (flat_map (fun l => [TPush; TText l]) (map row_text ws)) with (own_lines (map row_text ws)).
  change (p_indent (request TPush p1)) with (p_indent p1).
  rewrite history_rows. specialize (K2 []). rewrite app_nil_r in K2. rewrite K2. cbn [history_from]. rewrite app_nil_r, <- !app_assoc.
  do 2 f_equal. rewrite !map_app, <- !app_assoc. unfold row_text. rewrite map_app, <- !app_assoc. f_equal. rewrite !app_assoc. do 2 f_equal.
  unfold comment_line. destruct (w_tail w) as [l|]; [|apply app_nil_r]. destruct (content l); [apply app_nil_r|]. rewrite !map_app. reflexivity.
Qed.

(** ** The streams of the comment helpers *)
Lemma ritems_push (t : tokens LI) : ritems (push t) = hrun1 (ritems t) (HReq TPush).
Proof. destruct t. reflexivity. Qed.
Lemma ritems_space (t : tokens LI) : ritems (space t) = hrun1 (ritems t) (HReq TSpace).
Proof. destruct t as [[|[] r] la]; reflexivity. Qed.
Lemma ritems_istr s (t : tokens LI) : ritems (istr s t) = Literal s :: ritems t.
Proof. destruct t. reflexivity. Qed.
Lemma space_text s r : hrun1 (@Literal LI s :: r) (HReq TSpace) = Space :: Literal s :: r.
Proof. reflexivity. Qed.
Lemma row_stream b p l t : ritems (t |> push |> (if b : bool then space else fun t => t) |> istr p |> space |> istr l) =
  row_run (ritems t) (mk_row b p (Some l)).
Proof.
  rewrite ritems_istr, ritems_space, ritems_istr. unfold row_run, row_items, row_head. cbn [w_tail w_lead w_prefix].
  destruct b; rewrite ?ritems_space, ritems_push; reflexivity.
Qed.
Lemma row_stream_end b p t : ritems (t |> push |> (if b : bool then space else fun t => t) |> istr p) =
  row_run (ritems t) (mk_row b p None).
Proof.
  rewrite ritems_istr. unfold row_run, row_items, row_head. cbn [w_tail w_lead w_prefix].
  destruct b; rewrite ?ritems_space, ritems_push; reflexivity.
Qed.
Lemma rows_stream prefix ls : forall t : tokens LI,
  ritems (for_each (fun ln t => t |> push |> st prefix |> space |> istr ln) ls t) =
  fold_left row_run (map (fun l => mk_row false (Static prefix) (Some l)) ls) (ritems t).
Proof.
  induction ls as [|l ls IH]; intros t; [reflexivity|]. cbn [for_each fold_left map].
  rewrite <- (row_stream false (Static prefix) l t). apply IH.
Qed.
Lemma block_rows_stream ls : forall t : tokens LI,
  ritems (for_each (fun ln t => t |> space |> st $"*" |> space |> istr ln |> push) ls (t |> push) |> space |> txt $"*/") =
  fold_left row_run (map (fun l => mk_row true (Static $"*") (Some l)) ls ++ [mk_row true (Box $"*/") None]) (ritems t).
Proof.
  induction ls as [|l ls IH]; intros t.
  - cbn [for_each fold_left map app]. rewrite <- row_stream_end. reflexivity.
  - cbn [for_each fold_left map app]. rewrite <- (row_stream true (Static $"*") l t). apply IH.
Qed.
Lemma comment_stream ws h1 h2 t' : 
  ritems t' = fold_left row_run ws (ritems (@build LI (map act_call h1))) ->
  ritems (run (map act_call h2) t') = hrun (map to_h h2) (fold_left row_run ws (hrun (map to_h h1) [])).
Proof.
  intros E. destruct t' as [r la]. cbn [ritems] in E. subst r.
  destruct (to_h_run h2 (fold_left row_run ws (ritems (@build LI (map act_call h1)))) la) as [la' ->]. cbn [ritems].
  do 2 f_equal. destruct (to_h_run h1 [] 0) as [la1 E1]. unfold build. change (new) with (@mk_tokens LI [] 0). rewrite E1. reflexivity.
Qed.
End Comments.
