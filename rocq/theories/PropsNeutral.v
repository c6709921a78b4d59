(** * When calls that should change nothing do not (C07, C18, exactly).

    Vocabulary: [SpecFmt.v] (what is pending, [request], the layout of a history of
    calls, C21). *)
From Verif Require Import Str Tokens SpecTokens TokensRun Values Fmt SpecFmt RenderFacts SpecFile LayoutFacts HistoryFacts PropsTokens PropsFmt PropsLang SpecComment.

(** What is pending after requests. *)
Definition asked (ws : list act) (p : pending) : pending := fold_left (fun p a => request a p) ws p.
Definition no_texts (ws : list act) : Prop := forall s, ~ In (TText s) ws.
(** A history up to and including its last text. *)
Definition up_to_text (h : list act) : Prop := h = [] \/ exists h' s, h = h' ++ [TText s].

Section Places.
Context (ind : indentation_kind).
Lemma asked_from ws : no_texts ws -> forall first lvl p rest, history_from ind first lvl p (ws ++ rest) = history_from ind first lvl (asked ws p) rest.
Proof.
  induction ws as [|a ws IH]; intros N first lvl p rest; [reflexivity|].
  assert (N2 : no_texts ws) by (intros s H; apply (N s); right; exact H).
  destruct a; [exfalso; apply (N s); left; reflexivity|..]; cbn [app history_from]; rewrite IH by exact N2; reflexivity.
Qed.
Lemma text_from h s : forall first lvl p, exists out lvl', forall rest,
  history_from ind first lvl p (h ++ TText s :: rest) = out ++ history_from ind false lvl' nothing rest.
Proof.
  induction h as [|a h IH]; intros first lvl p.
  - eexists _, _. intros rest. cbn [app history_from]. rewrite app_assoc. reflexivity.
  - destruct a as [x| | | | |]; cbn [app history_from].
    + destruct (IH false (lvl + p_indent p)%Z nothing) as (out & lvl' & H). eexists _, _. intros rest. rewrite H. rewrite !app_assoc. reflexivity.
    + apply IH. + apply IH. + apply IH. + apply IH. + apply IH.
Qed.
(** What was written so far, and where the next text stands. *)
Definition starts (h : list act) : bool := match h with [] => true | _ => false end.
Lemma place h : up_to_text h -> exists out lvl, forall rest, history_layout ind (h ++ rest) = out ++ history_from ind (starts h) lvl nothing rest.
Proof.
  intros [->|(h' & s & ->)].
  - exists [], 0%Z. intros rest. reflexivity.
  - destruct (text_from h' s true 0%Z nothing) as (out & lvl & H). exists out, lvl. intros rest. unfold history_layout. rewrite <- app_assoc. cbn [app]. rewrite H.
    destruct h'; reflexivity.
Qed.

(** What is pending matters through these only. *)
Definition alike_at (first : bool) (p q : pending) : Prop :=
  p_indent p = p_indent q /\ p_space p = p_space q /\ if first then p_frozen p = p_frozen q else p_breaks p = p_breaks q.
Lemma alike_request first a p q : alike_at first p q -> alike_at first (request a p) (request a q).
Proof.
  intros (E1 & E2 & E3). destruct a; cbn [request]; unfold change_indent; rewrite ?E1.
  - repeat split; assumption.
  - destruct first; repeat split; cbn; congruence.
  - destruct first; repeat split; cbn; congruence.
  - destruct first; repeat split; cbn; try congruence. rewrite E2, E3. reflexivity.
  - destruct (_ =? 0)%Z; destruct first; repeat split.
  - destruct (_ =? 0)%Z; destruct first; repeat split.
Qed.
Lemma alike_history first h : forall lvl p q, alike_at first p q -> history_from ind first lvl p h = history_from ind first lvl q h.
Proof.
  induction h as [|a h IH]; intros lvl p q A; [reflexivity|].
  assert (R : forall b, history_from ind first lvl (request b p) h = history_from ind first lvl (request b q) h) by (intros b; apply IH, alike_request, A).
  destruct a; cbn [history_from]; try apply R. destruct A as (E1 & E2 & E3). rewrite E1. f_equal. unfold gap_text. rewrite E2. destruct first; rewrite E3; reflexivity.
Qed.
End Places.

Lemma asked_breaks ws : let p := asked ws nothing in (p_indent p <> 0%Z -> 1 <= p_breaks p) /\ (p_breaks p = 0 -> p_frozen p = 0).
Proof.
  assert (H : forall p, (p_indent p <> 0%Z -> 1 <= p_breaks p) /\ (p_breaks p = 0 -> p_frozen p = 0) ->
    let q := asked ws p in (p_indent q <> 0%Z -> 1 <= p_breaks q) /\ (p_breaks q = 0 -> p_frozen q = 0)).
  { induction ws as [|a ws IH]; intros p H; [exact H|]. apply (IH (request a p)). clear IH. destruct H as [H1 H2].
    destruct a; cbn [request]; unfold change_indent; cbn [p_indent p_breaks p_frozen]; try (split; [assumption|assumption]); try (split; [lia|lia]).
    - destruct (Z.eqb_spec (p_indent p + 1) 0); cbn; split; intros; congruence || lia.
    - destruct (Z.eqb_spec (p_indent p + -1) 0); cbn; split; intros; congruence || lia. }
  apply H. cbn. split; [congruence|reflexivity].
Qed.
Lemma text_newlines nl n : length (text nl (repeat NL n)) = n * length nl.
Proof. induction n as [|n IH]; [reflexivity|]. cbn [repeat text flat_map sym_text]. rewrite app_length. unfold text in IH. rewrite IH. reflexivity. Qed.

Lemma text_blanks nl n : length (text nl (blanks n)) = n.
Proof. unfold blanks. induction n as [|n IH]; [reflexivity|]. cbn [repeat text flat_map sym_text app length]. unfold text in IH. rewrite IH. reflexivity. Qed.

(** ** C07: indent, then unindent *)

(** Whatever comes later, the two calls have no effect exactly if: at the start, no space is
    pending; after a text, no space is pending, and no line break but the one that a
    pending change of indentation implies. *)
Theorem C07_exact : forall LI C F (L : lang_def LI C F) cfg c f h ws,
  texts_not_empty h -> no_texts ws -> up_to_text h -> c_newline cfg <> [] ->
  let p := asked ws nothing in
  (forall after, texts_not_empty after -> exists s,
     renders L cfg c f (build (map act_call (h ++ ws ++ after))) s /\
     renders L cfg c f (build (map act_call (h ++ ws ++ [TIndent; TUnindent] ++ after))) s) <->
  match h with
  | [] => p_space p = false /\ p_frozen p = 0
  | _ => p_space p = false /\ p_breaks p = if Z.eqb (p_indent p) 0 then 0 else 1
  end.
Proof.
  intros LI C F L cfg c f h ws TH NW UP NE p. set (ind := c_indentation cfg).
  assert (R : forall g, texts_not_empty g -> forall s, renders L cfg c f (build (map act_call g)) s <-> s = text (c_newline cfg) (history_layout ind g)).
  { intros g G s. unfold renders. rewrite (C21_history LI C F L cfg c f g). 2:{ apply Forall_forall. intros [x| | | | |] I; auto. }
    fold ind. split; [intros E; injection E as E; symmetry; exact E|intros ->; reflexivity]. }
  assert (TA : forall g, texts_not_empty g -> texts_not_empty (h ++ ws ++ g)).
  { intros g G s I. apply in_app_or in I as [I|I]; [apply (TH s I)|]. apply in_app_or in I as [I|I]; [destruct (NW s I)|apply (G s I)]. }
  destruct (place ind h UP) as (out & lvl & PL).
  (* the pending requests after the two calls *)
  set (q := request TUnindent (request TIndent p)).
  assert (Q : q = if Z.eqb (p_indent p) 0 then nothing else mk_pending 1 false 0 (p_indent p)).
  { unfold q. cbn [request]. unfold change_indent. destruct (Z.eqb_spec (p_indent p + 1) 0) as [E|E]; cbn [p_indent nothing];
      destruct (Z.eqb_spec (p_indent p) 0) as [E0|E0]; try lia; [replace (p_indent p) with (-1)%Z by lia; reflexivity|rewrite E0; reflexivity|].
    replace (p_indent p + 1 + -1)%Z with (p_indent p) by lia. destruct (Z.eqb_spec (p_indent p) 0); [contradiction|reflexivity]. }
  assert (LA : forall g, history_layout ind (h ++ ws ++ g) = out ++ history_from ind (starts h) lvl p g).
  { intros g. rewrite PL, asked_from by exact NW. reflexivity. }
  assert (LB : forall g, history_layout ind (h ++ ws ++ [TIndent; TUnindent] ++ g) = out ++ history_from ind (starts h) lvl q g).
  { intros g. rewrite LA. reflexivity. }
  destruct (asked_breaks ws) as [PI _]. fold p in PI.
  transitivity (alike_at (starts h) p q).
  - split.
    + intros H. specialize (H [TText $"x"]). destruct H as (s & H1 & H2); [intros s [E|[]]; injection E as <-; discriminate|].
      apply R in H1; [|apply TA; intros s' [E|[]]; injection E as <-; discriminate].
      apply R in H2; [|apply TA; intros s' [E|[E|[E|[]]]]; try discriminate; injection E as <-; discriminate].
      rewrite LA in H1. rewrite LB in H2. rewrite H1 in H2. clear s H1. rewrite !text_app in H2. apply app_inv_head in H2. cbn [history_from] in H2.
      rewrite !text_app in H2. apply (f_equal (@length N)) in H2. rewrite !app_length in H2.
      assert (QI : p_indent q = p_indent p) by (rewrite Q; destruct (Z.eqb_spec (p_indent p) 0); cbn; congruence). rewrite QI in H2.
      assert (G : length (text (c_newline cfg) (gap_text ind (starts h) (lvl + p_indent p) p)) = length (text (c_newline cfg) (gap_text ind (starts h) (lvl + p_indent p) q))) by lia. clear H2.
      pose proof (text_blanks (c_newline cfg)) as BL.
      assert (QS : p_space q = false) by (rewrite Q; destruct (_ =? 0)%Z; reflexivity).
      assert (QF : p_frozen q = 0) by (rewrite Q; destruct (_ =? 0)%Z; reflexivity).
      unfold gap_text in G. rewrite QS, QF in G. unfold alike_at. rewrite QI, QS. destruct (starts h).
      * rewrite !text_app, !app_length, !BL in G. rewrite QF. destruct (p_space p); repeat split; lia.
      * destruct (Nat.eqb_spec (p_breaks p) 0) as [E|E], (Nat.eqb_spec (p_breaks q) 0) as [E2|E2].
        -- rewrite !BL in G. destruct (p_space p); repeat split; lia.
        -- exfalso. assert (X : p_indent p <> 0%Z) by (intros X; rewrite Q, X in E2; apply E2; reflexivity).
           specialize (PI X). lia.
        -- exfalso. rewrite !text_app, !app_length, text_newlines in G. cbn [blanks repeat text flat_map length] in G.
           destruct (c_newline cfg); [congruence|]. cbn [length] in G. nia.
        -- rewrite !text_app, !app_length, !text_newlines, !BL in G.
           assert (QB : p_breaks q = 1) by (rewrite Q in E2 |- *; destruct (_ =? 0)%Z; [destruct (E2 eq_refl)|reflexivity]). rewrite QB in *.
           destruct (c_newline cfg) as [|x y]; [congruence|]. cbn [length] in G. destruct (p_space p); repeat split; nia.
    + intros A after AF. eexists. split; apply R; [apply TA; exact AF|reflexivity| |].
      * intros s I. apply (TA ([TIndent; TUnindent] ++ after)) in I; [exact I|]. intros s' [E|[E|I']]; try discriminate. apply (AF s' I').
      * rewrite LA, LB. do 2 f_equal. apply alike_history. exact A.
  - unfold alike_at. rewrite Q. destruct (Z.eqb_spec (p_indent p) 0) as [E|E]; destruct h; cbn [starts p_indent p_space p_frozen p_breaks nothing]; tauto.
Qed.
Print Assumptions C07_exact.

(** ** C18: registering an import *)
Section Registered.
Context {LI : Type} (ops : lang_ops LI) (ind : indentation_kind).
Definition act_level (h : list act) : Z := fold_right (fun a n => (match a with TIndent => 1 | TUnindent => -1 | _ => 0 end + n)%Z) 0%Z h.
Lemma level_cons a h : act_level (a :: h) = (act_level [a] + act_level h)%Z.
Proof. unfold act_level. cbn [fold_right]. lia. Qed.
Lemma asked_level a p : (forall s, a <> TText s) -> p_indent (request a p) = (p_indent p + act_level [a])%Z.
Proof.
  intros NT. destruct a as [x| | | | |]; [destruct (NT x eq_refl)|..]; cbn [request act_level fold_right p_indent]; try lia; unfold change_indent.
  - destruct (Z.eqb_spec (p_indent p + 1) 0); cbn; lia.
  - destruct (Z.eqb_spec (p_indent p + -1) 0); cbn; lia.
Qed.
Lemma text_level h s : forall first lvl p, exists out, forall rest,
  history_from ind first lvl p (h ++ TText s :: rest) = out ++ history_from ind false (lvl + p_indent p + act_level h) nothing rest.
Proof.
  induction h as [|a h IH]; intros first lvl p.
  - eexists. intros rest. cbn [app history_from act_level fold_right]. rewrite Z.add_0_r, app_assoc. reflexivity.
  - assert (R : forall b, (forall t, b <> TText t) -> exists out, forall rest,
      history_from ind first lvl (request b p) (h ++ TText s :: rest) = out ++ history_from ind false (lvl + p_indent p + act_level (b :: h)) nothing rest).
    { intros b NB. destruct (IH first lvl (request b p)) as (out & H). exists out. intros rest. rewrite H, asked_level by exact NB. do 2 f_equal. rewrite (level_cons b h). lia. }
    destruct a as [x| | | | |]; cbn [app history_from]; try (apply R; discriminate).
    destruct (IH false (lvl + p_indent p)%Z nothing) as (out & H). eexists. intros rest. rewrite H, !app_assoc. f_equal. f_equal. rewrite (level_cons (TText x) h). cbn [p_indent nothing]. change (act_level [TText x]) with 0%Z. lia.
Qed.
Lemma layout_text s l : s <> [] -> forall first lvl gap, exists out, forall rest,
  layout_from ind first lvl gap (l ++ AText s :: rest) = out ++ layout_from ind false (lvl + net gap + net l) [] rest.
Proof.
  intros S. assert (NA : forall a b, net (a ++ b) = (net a + net b)%Z) by (induction a; intros; cbn; rewrite ?IHa; lia).
  induction l as [|a l IH]; intros first lvl gap.
  - eexists. intros rest. cbn [app layout_from a_text net]. destruct s; [congruence|]. rewrite Z.add_0_r, app_assoc. reflexivity.
  - cbn [app layout_from net]. destruct (a_text a) as [|x y] eqn:T.
    + destruct (IH first lvl (gap ++ [a])) as (out & H). exists out. intros rest. rewrite H. do 2 f_equal. rewrite NA. cbn [net]. lia.
    + destruct (IH false (lvl + net gap)%Z []) as (out & H). eexists. intros rest. rewrite H, !app_assoc. do 2 f_equal. cbn [net].
      assert (A : a_indent a = 0%Z) by (destruct a; try reflexivity; discriminate). rewrite A. lia.
Qed.
Lemma separator_space first lvl g : separator ind first lvl (g ++ [ASpace]) = separator ind first lvl g ++ blanks 1.
Proof.
  assert (BL : forall n, blanks (n + 1) = blanks n ++ blanks 1) by (intros n; unfold blanks; apply repeat_app).
  assert (AL : forall f, f ASpace = false -> existsb f g = true -> after_last f (g ++ [ASpace]) = after_last f g ++ [ASpace]).
  { intros f F X. rewrite after_last_snoc, F. reflexivity. }
  unfold separator. rewrite !existsb_app. cbn [existsb a_line a_break orb]. rewrite !orb_false_r.
  destruct first; [rewrite (count_app g [ASpace]); change (count_spaces [ASpace]) with 1; rewrite BL, app_assoc; reflexivity|].
  destruct (existsb a_line g) eqn:E1; [rewrite AL by (reflexivity || exact E1); rewrite count_app; change (count_spaces [ASpace]) with 1; rewrite BL, <- !app_assoc; reflexivity|].
  destruct (existsb a_break g) eqn:E2; [rewrite AL by (reflexivity || exact E2); rewrite count_app; change (count_spaces [ASpace]) with 1; rewrite BL, <- !app_assoc; reflexivity|].
  rewrite count_app. apply BL.
Qed.
Lemma first_gap g : count_spaces g = 0 -> forall l lvl g2, layout_from ind true lvl (g ++ g2) l = layout_from ind true (lvl + net g) g2 l.
Proof.
  intros Z0. assert (NA : forall a b, net (a ++ b) = (net a + net b)%Z) by (induction a; intros; cbn; rewrite ?IHa; lia).
  induction l as [|a l IH]; intros lvl g2; [reflexivity|]. cbn [layout_from]. destruct (a_text a); [rewrite <- app_assoc; apply IH|].
  rewrite NA, Z.add_assoc. f_equal. unfold separator. rewrite count_app, Z0. reflexivity.
Qed.
Lemma first_level h : forall lvl p q d, p_indent p = (p_indent q + d)%Z -> p_space p = p_space q -> p_frozen p = p_frozen q ->
  history_from ind true lvl p h = history_from ind true (lvl + d) q h.
Proof.
  induction h as [|a h IH]; intros lvl p q d E1 E2 E3; [reflexivity|]. destruct a; cbn [history_from request].
  - replace (lvl + p_indent p)%Z with (lvl + d + p_indent q)%Z by lia. f_equal. unfold gap_text. rewrite E2, E3. reflexivity.
  - apply IH; cbn; congruence.
  - apply IH; cbn; congruence.
  - apply IH; cbn; [exact E1|reflexivity|rewrite E2, E3; reflexivity].
  - apply IH; unfold change_indent; destruct (Z.eqb_spec (p_indent p + 1) 0), (Z.eqb_spec (p_indent q + 1) 0); cbn; try reflexivity; lia.
  - apply IH; unfold change_indent; destruct (Z.eqb_spec (p_indent p + -1) 0), (Z.eqb_spec (p_indent q + -1) 0); cbn; try reflexivity; lia.
Qed.

(** Requests on a stream, and a text after them. *)
Lemma asked_shape ws : no_texts ws -> forall s lines p i base la, shape_ok lines p -> base_ok (LI := LI) base ->
  exists s' lines' p' i' la', run (map act_call ws) (mk_tokens (shape s lines p i ++ base) la) = mk_tokens (shape s' lines' p' i' ++ base) la' /\
    shape_ok lines' p' /\ state_of s' lines' p' i' = asked ws (state_of s lines p i).
Proof.
  induction ws as [|a ws IH]; intros NT s lines p i base la OK B.
  - exists s, lines, p, i, la. repeat split; assumption.
  - assert (NA : forall t, a <> TText t) by (intros t ->; apply (NT t); left; reflexivity).
    assert (NW : no_texts ws) by (intros t H; apply (NT t); right; exact H).
    destruct (request_shape a s lines p i base OK B NA) as (s1 & l1 & p1 & i1 & OK1 & ST & RI). specialize (RI la).
    cbn [map run fold_left]. change (fold_left _ (map act_call ws) ?x) with (run (map (@act_call LI) ws) x).
    destruct (run_call (act_call a) (mk_tokens (shape s lines p i ++ base) la)) as [ri la1]. cbn [ritems] in RI. subst ri.
    destruct (IH NW s1 l1 p1 i1 base la1 OK1 B) as (s2 & l2 & p2 & i2 & la2 & E & OK2 & ST2).
    exists s2, l2, p2, i2, la2. split; [exact E|]. split; [exact OK2|]. rewrite ST2, <- ST. reflexivity.
Qed.
Lemma supplied_level h : net_indentation (flat_map supplied (map (@act_call LI) h)) = act_level h.
Proof.
  induction h as [|a h IH]; [reflexivity|]. rewrite level_cons, <- IH. cbn [map flat_map]. rewrite net_app_i. f_equal. destruct a; reflexivity.
Qed.
Lemma level_app a b : act_level (a ++ b) = (act_level a + act_level b)%Z.
Proof. induction a as [|x a IH]; [reflexivity|]. cbn [app]. rewrite level_cons, (level_cons x a), IH. lia. Qed.

(** The stream up to requests: what is written, where, and the requests. *)
Lemma stream_place h ws : texts_not_empty h -> no_texts ws -> up_to_text h ->
  exists base s lines p i la out lvl,
    build (map act_call (h ++ ws)) = mk_tokens (shape s lines p i ++ base) la /\ base_ok (LI := LI) base /\ shape_ok lines p /\
    forallb plain (rev base) = true /\
    state_of s lines p i = asked ws nothing /\
    (forall rest, history_layout ind (h ++ rest) = out ++ history_from ind (starts h) lvl nothing rest) /\
    (forall rest, layout ind (atoms ops (rev base) ++ rest) = out ++ layout_from ind (starts h) lvl [] rest).
Proof.
  intros TH NW UP. set (t := @build LI (map act_call h)).
  assert (B : build (map act_call (h ++ ws)) = run (map act_call ws) t) by (unfold t, build; rewrite map_app; unfold run; rewrite fold_left_app; reflexivity).
  assert (G : Forall good_act h) by (apply Forall_forall; intros [x| | | | |] I; cbn; auto; apply TH; exact I).
  assert (OKB : base_ok (ritems t)).
  { destruct UP as [->|(h' & x & ->)]; [exact I|]. unfold t, build. rewrite map_app. unfold run. rewrite fold_left_app. reflexivity. }
  destruct (asked_shape ws NW false [] false 0%Z (ritems t) (last_lang_item t) I OKB) as (s & lines & p & i & la & E & OK & ST).
  cbn [shape sp app flat_map Z.eqb] in E. exists (ritems t), s, lines, p, i, la.
  assert (T : t = mk_tokens (ritems t) (last_lang_item t)) by (destruct t; reflexivity). rewrite <- T in E.
  destruct (history_build ops ind h G) as [PLN HB]. fold t in PLN, HB. fold (items t). 
  assert (X : exists out lvl, (forall rest, history_layout ind (h ++ rest) = out ++ history_from ind (starts h) lvl nothing rest) /\
    (forall rest, layout ind (atoms ops (items t) ++ rest) = out ++ layout_from ind (starts h) lvl [] rest)).
  { destruct UP as [->|(h' & x & ->)]; [exists [], 0%Z; split; reflexivity|].
    assert (NX : x <> []) by (apply TH, in_or_app; right; left; reflexivity).
    set (t' := @build LI (map act_call h')).
    assert (IT : items t = items t' ++ [Literal (Box x)]).
    { unfold t, t', build. rewrite map_app. unfold run. rewrite fold_left_app. reflexivity. }
    destruct (text_level h' x true 0%Z nothing) as (o1 & H1). destruct (layout_text x (atoms ops (items t')) NX true 0%Z []) as (o2 & H2).
    assert (LV : net (atoms ops (items t')) = act_level h').
    { rewrite net_atoms. unfold t', build. rewrite C03_net_indentation, supplied_level. reflexivity. }
    rewrite LV in H2. cbn [p_indent nothing net] in H1, H2.
    assert (ST' : starts (h' ++ [TText x]) = false) by (destruct h'; reflexivity). rewrite ST'.
    assert (O : o1 = o2).
    { rewrite IT, atoms_app in HB. unfold layout in HB. unfold history_layout in HB. cbn [atoms flat_map atoms_of app content] in HB. fold (atoms ops (items t')) in HB. rewrite H1, H2 in HB.
      cbn [history_from layout_from] in HB. rewrite !app_nil_r in HB. symmetry. exact HB. }
    subst o2. exists o1, (0 + 0 + act_level h')%Z. split; intros rest.
    - unfold history_layout. rewrite <- app_assoc. cbn [app]. apply H1.
    - rewrite IT, atoms_app, <- app_assoc. cbn [atoms flat_map atoms_of app content]. fold (atoms ops (items t')). apply H2. }
  destruct X as (out & lvl & X1 & X2). exists out, lvl.
  split; [rewrite B; exact E|]. split; [exact OKB|]. split; [exact OK|]. split; [exact PLN|]. split; [rewrite ST; reflexivity|]. split; [exact X1|exact X2].
Qed.
End Registered.

Section RegisteredText.
Context {LI : Type} (ops : lang_ops LI) (ind : indentation_kind).
(** Requests that undo a change of indentation. *)
Definition undo (i : Z) : list act :=
  if Z.eqb i 0 then [TIndent; TUnindent] else if Z.ltb 0 i then repeat TUnindent (Z.to_nat i) else repeat TIndent (Z.to_nat (- i)).
Lemma undo_texts i : no_texts (undo i).
Proof.
  intros s H. unfold undo in H. destruct (i =? 0)%Z; [destruct H as [H|[H|[]]]; discriminate|]. destruct (0 <? i)%Z; apply repeat_spec in H; discriminate.
Qed.
Lemma undo_asked p : asked (undo (p_indent p)) p = nothing.
Proof.
  unfold undo. destruct (Z.eqb_spec (p_indent p) 0) as [E|E].
  - unfold asked. cbn [fold_left request]. unfold change_indent at 2. rewrite E. reflexivity.
  - destruct (Z.ltb_spec 0 (p_indent p)) as [P|P].
    + assert (H : forall n p, p_indent p = Z.of_nat (S n) -> asked (repeat TUnindent (S n)) p = nothing).
      { clear. induction n as [|n IH]; intros p E; cbn [repeat]; unfold asked; cbn [fold_left request].
        - unfold change_indent. rewrite E. reflexivity.
        - change (asked (repeat TUnindent (S n)) (change_indent (-1) p) = nothing). apply IH. unfold change_indent. destruct (Z.eqb_spec (p_indent p + -1) 0); cbn [p_indent]; lia. }
      destruct (Z.to_nat (p_indent p)) as [|n] eqn:T; [lia|]. apply H. lia.
    + assert (H : forall n p, p_indent p = (- Z.of_nat (S n))%Z -> asked (repeat TIndent (S n)) p = nothing).
      { clear. induction n as [|n IH]; intros p E; cbn [repeat]; unfold asked; cbn [fold_left request].
        - unfold change_indent. rewrite E. reflexivity.
        - change (asked (repeat TIndent (S n)) (change_indent 1 p) = nothing). apply IH. unfold change_indent. destruct (Z.eqb_spec (p_indent p + 1) 0); cbn [p_indent]; lia. }
      destruct (Z.to_nat (- p_indent p)) as [|n] eqn:T; [lia|]. apply H. lia.
Qed.
(** A text after requests on a stream that starts afresh. *)
Lemma asked_text ws x base la : no_texts ws -> base_ok (LI := LI) base ->
  exists s lines p i, state_of s lines p i = asked ws nothing /\ shape_ok lines p /\
    items (run (map act_call (ws ++ [TText x])) (mk_tokens base la)) = rev base ++ rev (shape s lines p i) ++ [Literal (Box x)].
Proof.
  intros NW B. destruct (asked_shape ws NW false [] false 0%Z base la I B) as (s & lines & p & i & la' & E & OK & ST).
  exists s, lines, p, i. split; [exact ST|]. split; [exact OK|]. rewrite map_app. unfold run. rewrite fold_left_app.
  change (fold_left _ (map act_call ws) ?y) with (run (map (@act_call LI) ws) y). cbn [shape sp app flat_map Z.eqb] in E. rewrite E.
  unfold items. cbn [map act_call fold_left run_call add_item vec_push ritems rev]. rewrite rev_app_distr, <- app_assoc. reflexivity.
Qed.
Lemma shape_breaks s lines p i : p_breaks (state_of s lines p i) <> 0 -> existsb a_break (shape_atoms ops s lines p i) = true.
Proof.
  rewrite shape_atoms_eq. cbn [state_of p_breaks]. intros H. rewrite !existsb_app. destruct lines as [|b ls].
  - destruct p; [rewrite ?orb_true_r; reflexivity|]. cbn [orb] in H. destruct (Z.eqb i 0) eqn:E; [destruct (H eq_refl)|]. cbn [existsb a_break]. rewrite E. reflexivity.
  - rewrite (existsb_lines a_break (b :: ls)) by (reflexivity || discriminate). rewrite ?orb_true_r. reflexivity.
Qed.
Lemma shape_spaces s lines p i : count_spaces (shape_atoms ops s lines p i) = p_frozen (state_of s lines p i) + if s then 1 else 0.
Proof.
  rewrite shape_atoms_eq, !count_app. cbn [state_of p_frozen].
  assert (X : count_spaces (flat_map (fun b => (if b : bool then [ASpace] else []) ++ [ALine]) (rev lines)) = count lines).
  { induction lines as [|b ls IH]; [reflexivity|]. cbn [rev]. rewrite flat_map_app, count_app, IH. unfold count. destruct b; cbn; lia. }
  rewrite X. destruct (Z.eqb i 0), p, s; cbn; lia.
Qed.
End RegisteredText.

(** Whatever comes later, registering has no effect on the text exactly if: at the start,
    no space is pending; after a text, neither a space nor a line break. *)
Theorem C18_exact : forall LI C F (L : lang_def LI C F) cfg c f h ws prev l,
  texts_not_empty h -> no_texts ws -> up_to_text h -> c_newline cfg <> [] ->
  let p := asked ws nothing in
  (forall after, texts_not_empty after -> exists s,
     renders L cfg c f (build (map act_call (h ++ ws ++ after))) s /\
     renders L cfg c f (build (map act_call (h ++ ws) ++ CItem (Register prev l) :: map act_call after)) s) <->
  match h with
  | [] => p_space p = false /\ p_frozen p = 0
  | _ => p_space p = false /\ p_breaks p = 0
  end.
Proof.
  intros LI C F L cfg c f h ws prev l TH NW UP NE pe. set (ind := c_indentation cfg). set (ops := ld_ops L c f).
  destruct (stream_place ops ind h ws TH NW UP) as (base & s & lines & p & i & la & out & lvl & BD & BO & OK & PLN & ST & LA & LB).
  fold pe in ST.
  assert (TA : forall g, texts_not_empty g -> texts_not_empty (h ++ ws ++ g)).
  { intros g G x I. apply in_app_or in I as [I|I]; [apply (TH x I)|]. apply in_app_or in I as [I|I]; [destruct (NW x I)|apply (G x I)]. }
  assert (R1 : forall g, texts_not_empty g -> forall x, renders L cfg c f (build (map act_call (h ++ ws ++ g))) x <->
    x = text (c_newline cfg) (out ++ history_from ind (starts h) lvl pe g)).
  { intros g G x. unfold renders. rewrite (C21_history LI C F L cfg c f (h ++ ws ++ g)). 2:{ apply Forall_forall. intros [y| | | | |] I; auto. apply (TA g G y I). }
    fold ind. rewrite LA, asked_from by exact NW. fold pe. split; [intros E; injection E as E; symmetry; exact E|intros ->; reflexivity]. }
  set (t2 := mk_tokens (Register la l :: shape s lines p i ++ base) (S (length (shape s lines p i ++ base)))).
  assert (B2 : forall g, build (map act_call (h ++ ws) ++ CItem (Register prev l) :: map act_call g) = run (map act_call g) t2).
  { intros g. unfold build, run. rewrite fold_left_app. cbn [fold_left]. change (fold_left _ (map act_call (h ++ ws)) new) with (@build LI (map act_call (h ++ ws))). rewrite BD. reflexivity. }
  set (G := shape_atoms ops s lines p i).
  assert (R2 : forall g its, items (run (map act_call g) t2) = rev (ritems t2) ++ its -> forallb plain its = true -> forall x,
    renders L cfg c f (build (map act_call (h ++ ws) ++ CItem (Register prev l) :: map act_call g)) x <->
    x = text (c_newline cfg) (out ++ layout_from ind (starts h) lvl G (atoms ops its))).
  { intros g its E PL x. rewrite B2. unfold renders, format. rewrite C10_layout.
    - rewrite E. cbn [t2 ritems rev]. rewrite rev_app_distr, !atoms_app, <- !app_assoc. cbn [atoms flat_map atoms_of app]. fold (atoms ops its). fold ops ind. rewrite LB.
      fold G. rewrite layout_from_invisible by apply shape_invisible. cbn [app]. split; [intros X; injection X as X; symmetry; exact X|intros ->; reflexivity].
    - rewrite E, forallb_app, PL, andb_true_r. cbn [t2 ritems rev]. rewrite rev_app_distr, !forallb_app, PLN. cbn [forallb plain andb]. rewrite andb_true_r.
      pose proof (shape_white s lines p i (LI := LI)) as W. clear -W. apply forallb_forall. intros y Hy. apply in_rev in Hy. rewrite Forall_forall in W. specialize (W y Hy). destruct y; auto; discriminate. }
  assert (OK2 : base_ok (ritems t2)) by reflexivity.
  (* one text after requests *)
  assert (R3 : forall ws2, no_texts ws2 -> (exists x, renders L cfg c f (build (map act_call (h ++ ws ++ ws2 ++ [TText $"x"]))) x /\
      renders L cfg c f (build (map act_call (h ++ ws) ++ CItem (Register prev l) :: map act_call (ws2 ++ [TText $"x"]))) x) ->
    exists s2 l2 p2 i2, state_of s2 l2 p2 i2 = asked ws2 nothing /\
      length (text (c_newline cfg) (gap_text ind (starts h) (lvl + p_indent (asked ws2 pe)) (asked ws2 pe))) =
      length (text (c_newline cfg) (separator ind (starts h) (lvl + net (G ++ shape_atoms ops s2 l2 p2 i2)) (G ++ shape_atoms ops s2 l2 p2 i2)))).
  { intros ws2 N2 (x & H1 & H2). destruct (asked_text ws2 $"x" (ritems t2) (last_lang_item t2) N2 OK2) as (s2 & l2 & p2 & i2 & ST2 & OKS & IT).
    exists s2, l2, p2, i2. split; [exact ST2|].
    assert (TX : texts_not_empty (ws2 ++ [TText $"x"])) by (intros y I; apply in_app_or in I as [I|[I|[]]]; [destruct (N2 y I)|injection I as <-; discriminate]).
    apply (R1 _ TX) in H1. apply (R2 _ (rev (shape s2 l2 p2 i2) ++ [Literal (Box $"x")])) in H2.
    - rewrite H1 in H2. clear H1 x. rewrite !text_app in H2. apply app_inv_head in H2. rewrite asked_from in H2 by exact N2. cbn [history_from] in H2.
      rewrite atoms_app in H2. change (atoms ops (rev (shape s2 l2 p2 i2))) with (shape_atoms ops s2 l2 p2 i2) in H2. rewrite layout_from_invisible in H2 by apply shape_invisible.
      set (gg := G ++ shape_atoms ops s2 l2 p2 i2) in *.
      assert (LT : layout_from ind (starts h) lvl gg (atoms ops [Literal (Box $"x")]) = separator ind (starts h) (lvl + net gg) gg ++ [Ch 120%N]) by reflexivity.
      rewrite LT in H2. rewrite !text_app in H2. apply (f_equal (@length N)) in H2. rewrite !app_length in H2.
      cbn [text flat_map sym_text map lit app length] in H2 |- *. 
      change (length (text (c_newline cfg) (map Ch $"x"))) with 1 in H2. change (length (flat_map _ [])) with 0 in H2. lia.
    - exact IT.
    - rewrite forallb_app. cbn [forallb plain andb]. rewrite andb_true_r.
      pose proof (shape_white s2 l2 p2 i2 (LI := LI)) as W. clear -W. apply forallb_forall. intros y Hy. apply in_rev in Hy. rewrite Forall_forall in W. specialize (W y Hy). destruct y; auto; discriminate. }
  assert (PE : pe = state_of s lines p i) by (symmetry; exact ST).
  assert (PS : p_space pe = s) by (rewrite PE; reflexivity).
  assert (PI : p_indent pe = i) by (rewrite PE; reflexivity).
  assert (NG : net G = i) by (unfold G; apply shape_atoms_net).
  destruct (asked_breaks ws) as [_ BF]. fold pe in BF.
  split.
  - intros H.
    (* no space is pending *)
    assert (SF : p_space pe = false).
    { destruct (p_space pe) eqn:EP; [|reflexivity]. exfalso.
      destruct (R3 [TSpace]) as (s2 & l2 & p2 & i2 & ST2 & LEN); [intros y [I|[]]; discriminate|apply H; intros y [I|[I|[]]]; [discriminate|injection I as <-; discriminate]|].
      assert (SH : shape_atoms ops s2 l2 p2 i2 = [ASpace]).
      { injection ST2 as E1 E2 E3 E4. subst s2 i2. destruct l2 as [|b l2]; [|discriminate]. destruct p2; [discriminate|]. reflexivity. }
      rewrite SH, separator_space in LEN. rewrite text_app, app_length in LEN. 
      assert (NN : net (G ++ [ASpace]) = net G) by (clear; induction G; cbn in *; lia). rewrite NN, NG in LEN.
      unfold G in LEN. rewrite separator_shape, <- PE in LEN.
      assert (AP : asked [TSpace] pe = pe) by (unfold asked; cbn [fold_left request]; rewrite <- EP; destruct pe; reflexivity).
      rewrite AP, PI in LEN. rewrite text_blanks in LEN. lia. }
    destruct h as [|a h]; cbn [starts] in *.
    + split; [exact SF|]. destruct (p_frozen pe) eqn:EF; [reflexivity|]. exfalso.
      destruct (R3 [TIndent]) as (s2 & l2 & p2 & i2 & ST2 & LEN); [intros y [I|[]]; discriminate|apply H; intros y [I|[I|[]]]; [discriminate|injection I as <-; discriminate]|].
      assert (N2 : net (shape_atoms ops s2 l2 p2 i2) = 1%Z) by (rewrite shape_atoms_net; apply (f_equal p_indent) in ST2; exact ST2).
      assert (PI2 : p_indent (asked [TIndent] pe) = (i + 1)%Z) by (unfold asked; cbn [fold_left request]; unfold change_indent; rewrite PI; destruct (Z.eqb_spec (i + 1) 0); cbn [p_indent nothing]; lia).
      rewrite PI2, HeaderFacts.net_app, NG, N2 in LEN. unfold separator, gap_text in LEN. rewrite count_app in LEN.
      unfold G in LEN at 1. rewrite shape_spaces, <- PE, EF in LEN. rewrite !text_app, !app_length, !text_blanks in LEN.
      assert (Z2 : p_frozen (asked [TIndent] pe) = 0 /\ p_space (asked [TIndent] pe) = false) by (unfold asked; cbn [fold_left request]; unfold change_indent; destruct (Z.eqb _ 0); split; reflexivity).
      destruct Z2 as [Z2 Z3]. rewrite Z2, Z3 in LEN. lia.
    + split; [exact SF|]. destruct (p_breaks pe) eqn:EB; [reflexivity|]. exfalso.
      destruct (R3 (undo (p_indent pe))) as (s2 & l2 & p2 & i2 & ST2 & LEN); [apply undo_texts|apply H; intros y I; apply in_app_or in I as [I|[I|[]]]; [destruct (undo_texts _ _ I)|injection I as <-; discriminate]|].
      rewrite undo_asked in LEN. unfold separator, gap_text in LEN. cbn [nothing p_space p_breaks Nat.eqb] in LEN.
      assert (BR : existsb a_break (G ++ shape_atoms ops s2 l2 p2 i2) = true) by (rewrite existsb_app; unfold G; rewrite shape_breaks; [reflexivity|rewrite <- PE, EB; discriminate]).
      rewrite BR in LEN. destruct (c_newline cfg) as [|n0 nl]; [destruct (NE eq_refl)|].
      destruct (existsb a_line _) in LEN; cbn [blanks repeat app text flat_map sym_text length] in LEN; rewrite ?app_length in LEN; cbn [length] in LEN; lia.
  - intros K after TAF. destruct (history_run ops ind after) with (first := starts h) (lvl := match h with [] => (lvl + i)%Z | _ => lvl end) (s := false) (lines := @nil bool) (p := false) (i := 0%Z) (base := ritems t2) (la := last_lang_item t2) as (its & E & PL & LY); [|exact I|exact OK2|].
    { apply Forall_forall. intros [y| | | | |] I; cbn; try exact Logic.I. apply TAF. exact I. }
    eexists. split; [apply (R1 _ TAF); reflexivity|]. apply (R2 _ its); [exact E|exact PL|]. do 2 f_equal.
    change (state_of false [] false 0) with nothing in LY. symmetry. destruct h as [|a h]; destruct K as [K1 K2]; cbn [starts] in *.
    + assert (C0 : count_spaces G = 0) by (unfold G; rewrite shape_spaces, <- PE, <- PS, K1, K2; reflexivity).
      rewrite <- (app_nil_r G), (first_gap _ G C0), NG, (first_level _ after lvl pe nothing i); [|rewrite PI; reflexivity|exact K1|exact K2].
      exact LY.
    + assert (PN : pe = nothing) by (rewrite PE in *; cbn [state_of p_space p_breaks] in *; destruct lines; [|discriminate]; destruct p; [discriminate|]; destruct (Z.eqb_spec i 0) as [->|]; [subst s; reflexivity|discriminate]).
      assert (GN : G = []) by (unfold G; rewrite shape_atoms_eq; rewrite PN in PE; injection PE as E1 E2 E3 E4; subst s i; destruct lines; [|discriminate]; destruct p; [discriminate|]; reflexivity).
      rewrite GN, PN. exact LY.
Qed.
Print Assumptions C18_exact.

(** The conditions are met, and fail, on concrete histories.  After [a] nothing is
    pending: registering and indenting back have no effect.  After [a] and an
    indent registering has one: the unindent no longer cancels the line break. *)
Example C18_exact_example : let cfg := mk_config ITab [10%N] in let h := [TText $"a"] in
  let b := [TUnindent; TText $"b"] in
  texts_not_empty h /\ no_texts [TIndent] /\ up_to_text h /\ c_newline cfg <> [] /\
  p_space (asked [] nothing) = false /\ p_breaks (asked [] nothing) = 0 /\
  p_breaks (asked [TIndent] nothing) = 1 /\
  renders demo_lang cfg tt tt (build (map act_call (h ++ [TIndent] ++ b))) $"ab" /\
  renders demo_lang cfg tt tt (build (map act_call (h ++ [TIndent]) ++ CItem (Register 0 7) :: map act_call b))
    ($"a" ++ [10%N] ++ $"b").
Proof.
  cbv zeta. split; [intros y [H|[]]; injection H as <-; discriminate|]. split; [intros y [H|[]]; discriminate|].
  split; [right; exists [], $"a"; reflexivity|]. split; [discriminate|]. repeat split; vm_compute; reflexivity.
Qed.
Example C07_exact_example : let cfg := mk_config ITab [10%N] in let h := [TText $"a"] in
  let b := [TText $"b"] in
  p_breaks (asked [TLine] nothing) = 2 /\ p_indent (asked [TLine] nothing) = 0%Z /\
  p_breaks (asked [TLine; TIndent] nothing) = 1 /\ p_indent (asked [TLine; TIndent] nothing) = 1%Z /\
  renders demo_lang cfg tt tt (build (map act_call (h ++ [TLine] ++ b))) ($"a" ++ [10; 10]%N ++ $"b") /\
  renders demo_lang cfg tt tt (build (map act_call (h ++ [TLine] ++ [TIndent; TUnindent] ++ b))) $"ab" /\
  renders demo_lang cfg tt tt (build (map act_call (h ++ [TLine; TIndent] ++ [TIndent; TUnindent] ++ b)))
    ($"a" ++ [10; 9]%N ++ $"b").
Proof. cbv zeta. repeat split; vm_compute; reflexivity. Qed.
