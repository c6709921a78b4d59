(** * Lemmas: files as a header stream followed by a body stream. *)
From Verif Require Import Str StrFacts Tokens SpecTokens TokensRun Values Fmt SpecFmt RenderFacts LayoutFacts
  HistoryFacts OutputFacts Order OrderFacts SpecFile LangBase HeaderFacts TokensFacts.

(** ** Orders of the specification *)

Lemma text_before_cmp a : forall b, str_cmp a b = Lt -> text_before a b.
Proof.
  induction a as [|x a IH]; intros [|y b]; cbn; try discriminate.
  - intros _. exists [], [], (y :: b). auto.
  - destruct (N.compare x y) eqn:E; try discriminate.
    + apply N.compare_eq in E. subst y. intros H. destruct (IH b H) as (p & a' & b' & -> & -> & M).
      exists (x :: p), a', b'. auto.
    + intros _. exists [], (x :: a), (y :: b). repeat split; auto.
Qed.
Lemma text_before_iff a b : str_cmp a b = Lt <-> text_before a b.
Proof.
  split; [apply text_before_cmp|]. intros (p & a' & b' & -> & -> & H).
  induction p as [|x p IH]; cbn.
  - destruct a' as [|x a'], b' as [|y b']; try tauto. cbn. unfold then_cmp.
    apply N.compare_lt_iff in H. rewrite H. auto.
  - unfold then_cmp. rewrite N.compare_refl. auto.
Qed.
Lemma name_before_cmp a b : cmp_item_str a b = Lt -> name_before a b.
Proof. destruct a, b; cbn; auto using text_before_cmp; discriminate. Qed.
Lemma name_before_iff a b : cmp_item_str a b = Lt <-> name_before a b.
Proof.
  split; [apply name_before_cmp|]. destruct a, b; cbn; try tauto; apply text_before_iff.
Qed.
Lemma pair_before_iff {A B} (ca : A -> A -> comparison) (cb : B -> B -> comparison)
    (RA : A -> A -> Prop) (RB : B -> B -> Prop) : order ca ->
  (forall a b, ca a b = Lt <-> RA a b) -> (forall a b, cb a b = Lt <-> RB a b) ->
  forall a b, cmp_pair ca cb a b = Lt <-> pair_before RA RB a b.
Proof.
  intros O HA HB [a1 b1] [a2 b2]. unfold cmp_pair, then_cmp, pair_before. cbn.
  rewrite <- HA, <- HB. destruct (ca a1 a2) eqn:E.
  - apply (proj1 O) in E; auto. subst. split; [auto|]. intros [H|[_ H]]; auto. 
    assert (ca a2 a2 = Eq) by (apply (proj1 O); auto). congruence.
  - tauto.
  - split; [discriminate|]. intros [H|[-> H]]; [discriminate|]. 
    assert (ca a2 a2 = Eq) by (apply (proj1 O); auto). congruence.
Qed.
Lemma bool_before_cmp a b : cmp_bool a b = Lt -> bool_before a b.
Proof. destruct a, b; cbn; try discriminate. split; auto. Qed.
Lemma opt_before_cmp {A} (c : A -> A -> comparison) (R : A -> A -> Prop) : (forall a b, c a b = Lt -> R a b) ->
  forall a b, cmp_option c a b = Lt -> opt_before R a b.
Proof. intros H [a|] [b|]; cbn; auto; discriminate. Qed.
Lemma pair_before_cmp {A B} (ca : A -> A -> comparison) (cb : B -> B -> comparison)
    (R : A -> A -> Prop) (S : B -> B -> Prop) : order ca ->
  (forall a b, ca a b = Lt -> R a b) -> (forall a b, cb a b = Lt -> S a b) ->
  forall a b, cmp_pair ca cb a b = Lt -> pair_before R S a b.
Proof.
  intros O H1 H2 [a b] [a' b']. unfold cmp_pair, pair_before, then_cmp. cbn.
  destruct (ca a a') eqn:E; try discriminate; auto. apply (o_eq O) in E; auto.
Qed.
Lemma increasing_sorted {A} (c : A -> A -> comparison) (R : A -> A -> Prop) l :
  (forall a b, c a b = Lt -> R a b) -> increasing c l -> sorted R l.
Proof.
  intros H. unfold increasing, sorted. induction 1; constructor; auto.
  eapply Forall_impl; [|eassumption]. auto.
Qed.

(** ** Texts *)

Lemma text_join nl lines : text nl (join_lines lines) = stack nl lines.
Proof.
  induction lines as [|l [|l2 ls] IH]; [reflexivity|apply text_chars|].
  cbn [join_lines stack]. cbn [join_lines stack] in IH. rewrite text_app, text_chars. cbn [text flat_map sym_text].
  do 2 f_equal. apply IH.
Qed.

Lemma layout_from_empty ind nl l : forall first lvl gap, text nl (layout_from ind first lvl gap l) = [] ->
  forall first' lvl' gap', layout_from ind first' lvl' gap' l = [].
Proof.
  induction l as [|a l IH]; intros first lvl gap E first' lvl' gap'; cbn [layout_from] in *; [reflexivity|].
  destruct (a_text a) as [|c s]; [eapply IH; eauto|].
  rewrite !text_app, text_chars in E. exfalso.
  apply app_eq_nil in E as [_ E]. discriminate E.
Qed.

(** ** Files *)

Section Files.
Context {LI Config Format : Type} (L : lang_def LI Config Format) (cfg : config) (c : Config) (f : Format).
Notation ops := (ld_ops L c f).
Notation nl := (c_newline cfg).
Notation ind := (c_indentation cfg).
Notation frame0 := (mk_frame false false false).

Lemma renders_atoms t body : renders L cfg c f t body ->
  exists l rest, E ops cfg false [frame0] (items t) = (l, rest, true) /\ body = text nl (layout ind l) /\
  forall W (wr : writer W) st, format L wr cfg t c f st = run_atoms wr cfg l st.
Proof.
  unfold renders, outcome. intros R.
  pose proof (fun W (wr : writer W) st => format_items_elab ops cfg wr (items t) st) as F.
  unfold format in *. destruct (E ops cfg false [frame0] (items t)) as [[l rest] ok].
  rewrite F in R. destruct (run_string_new cfg l []) as [st' [E1 E2]].
  unfold str in *. rewrite E1 in R. cbn in R. injection R as <- ->.
  exists l, rest. split; [reflexivity|]. split; [exact E2|].
  intros W wr st. rewrite F. destruct (run_atoms wr cfg l st) as [s b]. cbn. rewrite andb_true_r. auto.
Qed.

(** The atoms before the first text. *)
Lemma silent_atoms ws : Forall (silent (l_format_item ops)) ws -> forallb plain ws = true /\
  Forall (fun x => a_text x = []) (atoms ops ws) /\ net (atoms ops ws) = level_of ws /\
  existsb a_line (atoms ops ws) = existsb is_line ws /\
  count_spaces (atoms ops ws) = overtaken ws + count_spaces (after_last a_line (ALine :: atoms ops ws)).
Proof.
  assert (T : forall ss, concat ss = [] -> forall g, Forall (fun x => a_text x = []) (map AText ss) /\
    net (map AText ss ++ g) = net g /\ existsb a_line (map AText ss ++ g) = existsb a_line g /\
    count_spaces (map AText ss ++ g) = count_spaces g /\
    count_spaces (after_last a_line (ALine :: map AText ss ++ g)) = count_spaces (after_last a_line (ALine :: g))).
  { induction ss as [|s ss IH]; intros H g; cbn [concat map] in *.
    { repeat split; auto. }
    apply app_eq_nil in H as [-> H]. destruct (IH H g) as (I1 & I2 & I3 & I4 & I5).
    split; [constructor; auto|]. split; [exact I2|]. split; [exact I3|]. split; [exact I4|].
    rewrite <- I5. cbn [app after_last a_line existsb orb]. rewrite I3.
    destruct (existsb a_line g); reflexivity. }
  induction ws as [|x ws IH]; intros F; [repeat split; constructor|].
  apply Forall_cons_iff in F as [X F]. destruct (IH F) as (P & A & B & C & D). clear IH.
  cbn [atoms flat_map] in *. change (flat_map (atoms_of ops) ws) with (atoms ops ws) in *.
  destruct x as [s|p l0|p l0| | | |n|e| | |]; cbn [silent] in X; try contradiction; cbn [atoms_of app].
  - destruct (T [content s]) with (g := atoms ops ws) as (I1 & I2 & I3 & I4 & I5); [cbn; rewrite app_nil_r; exact X|].
    cbn [map app] in *. split; [exact P|]. split; [constructor; auto|]. split; [rewrite I2; exact B|].
    split; [rewrite I3; exact C|]. rewrite I4, I5. exact D.
  - destruct (T _ X (atoms ops ws)) as (I1 & I2 & I3 & I4 & I5).
    split; [exact P|]. split; [apply Forall_app; auto|]. split; [rewrite I2; exact B|].
    split; [rewrite I3; exact C|]. rewrite I4, I5. exact D.
  - repeat split; auto.
  - split; [exact P|]. split; [constructor; auto|]. split; [exact B|]. split; [exact C|].
    unfold count_spaces in *. cbn [filter a_space length overtaken]. rewrite D.
    cbn [after_last existsb a_line orb]. destruct (existsb a_line (atoms ops ws)); reflexivity.
  - split; [exact P|]. split; [constructor; auto|]. split; [exact B|]. split; [reflexivity|].
    unfold count_spaces in *. cbn [filter a_space length overtaken]. rewrite D.
    cbn [after_last existsb a_line orb]. destruct (existsb a_line (atoms ops ws)); reflexivity.
  - split; [exact P|]. split; [constructor; auto|]. split; [exact B|]. split; [exact C|].
    unfold count_spaces in *. cbn [filter a_space length overtaken]. rewrite D. rewrite <- C.
    cbn [after_last existsb a_line orb]. destruct (existsb a_line (atoms ops ws)); cbn [filter a_space length]; lia.
  - split; [exact P|]. split; [constructor; auto|]. split; [cbn; rewrite B; reflexivity|]. split; [exact C|].
    unfold count_spaces in *. cbn [filter a_space length overtaken]. rewrite D.
    cbn [after_last existsb a_line orb]. destruct (existsb a_line (atoms ops ws)); reflexivity.
Qed.

Lemma texts_first ss : concat ss <> [] ->
  exists n a l, texts ss = repeat (AText []) n ++ a :: l /\ visible a = true.
Proof.
  intros H. induction ss as [|s ss IH]; [destruct H; reflexivity|]. destruct s as [|x s].
  - destruct (IH H) as (n & a & l & E1 & E2). exists (S n), a, l. unfold texts in *. cbn. rewrite E1. auto.
  - exists 0, (AText (x :: s)), (texts ss). auto.
Qed.

Definition opens (l : list atom) (ws : list (item LI)) : Prop :=
  exists n a l', l = (atoms ops ws ++ repeat (AText []) n) ++ a :: l' /\ visible a = true.

Lemma first_text xs : (forall e, concat (l_open_quote ops e) <> []) ->
  forall l rest, E ops cfg false [frame0] xs = (l, rest, true) -> layout ind l <> [] ->
  exists ws x post, xs = ws ++ x :: post /\ begins_text (l_format_item ops) x /\
    Forall (silent (l_format_item ops)) ws /\ opens l ws.
Proof.
  intros Q. induction xs as [|x xs IH]; intros l rest EE NE.
  { rewrite E_nil in EE. injection EE as <- _. destruct NE. reflexivity. }
  assert (B : begins_text (l_format_item ops) x \/ silent (l_format_item ops) x \/
     x = CloseQuote \/ x = OpenEval \/ x = CloseEval).
  { destruct x as [s|p l0|p l0| | | |n|e| | |]; cbn; auto.
    - destruct (content s); [right; left; auto|left; discriminate].
    - destruct (concat (l_format_item ops l0)); [right; left; auto|left; discriminate]. }
  destruct B as [B|[B|B]].
  - exists [], x, xs. split; [reflexivity|]. split; [exact B|]. split; [constructor|].
    assert (X : exists ss r, concat ss <> [] /\ E ops cfg false [frame0] (x :: xs) = pre (texts ss) r).
    { destruct x as [s|p l0|p l0| | | | |e| | |]; cbn in B; try contradiction.
      - exists [content s], (E ops cfg false [frame0] xs). rewrite E_plain by auto. cbn. rewrite app_nil_r. auto.
      - exists (l_format_item ops l0), (E ops cfg false [frame0] xs). rewrite E_plain by auto. auto.
      - eexists _, _. rewrite E_open by auto. split; [|reflexivity]. apply Q. }
    destruct X as (ss & r & H1 & H2). rewrite H2 in EE. destruct r as [[l2 r] ok2]. cbn in EE. injection EE as <- _ _.
    destruct (texts_first ss H1) as (n & a & l' & E1 & E2). exists n, a, (l' ++ l2). rewrite E1.
    cbn [atoms flat_map app]. rewrite <- app_assoc. auto.
  - destruct (silent_atoms [x]) as (P & A & _); [auto|]. cbn [forallb] in P. rewrite andb_true_r in P.
    rewrite E_plain in EE by exact P. cbn [in_quote] in EE.
    destruct (E ops cfg false [frame0] xs) as [[l2 r] ok2]. cbn in EE. injection EE as <- <- ->.
    cbn [atoms flat_map] in A. rewrite app_nil_r in A.
    assert (NE' : layout ind l2 <> []).
    { intros Z. apply NE. unfold layout in *. rewrite layout_from_invisible by exact A.
      eapply layout_from_empty with (nl := nl). rewrite Z. reflexivity. }
    destruct (IH _ _ eq_refl NE') as (ws & y & post & -> & E2 & E3 & (n & a & l' & E4 & E5)).
    exists (x :: ws), y, post. split; [reflexivity|]. split; [exact E2|]. split; [constructor; auto|].
    exists n, a, l'. rewrite E4. cbn [atoms flat_map]. rewrite <- !app_assoc. auto.
  - exfalso. destruct B as [->|[->| ->]]; discriminate EE.
Qed.

Lemma opens_gap l ws : Forall (silent (l_format_item ops)) ws -> opens l ws ->
  exists g a l', l = g ++ a :: l' /\ visible a = true /\ Forall (fun x => a_text x = []) g /\ net g = level_of ws /\
    count_spaces g = overtaken ws + count_spaces (after_last a_line (ALine :: g)).
Proof.
  intros F (n & a & l' & EL & V). exists (atoms ops ws ++ repeat (AText []) n), a, l'.
  split; [exact EL|]. split; [exact V|].
  assert (G : atoms ops ws ++ repeat (AText []) n = atoms ops (ws ++ repeat (Literal (Static [])) n)).
  { unfold atoms. rewrite flat_map_app. f_equal. clear. induction n as [|n IH]; cbn; [|rewrite IH]; auto. }
  rewrite G. destruct (silent_atoms (ws ++ repeat (Literal (Static [])) n)) as (_ & A & B & _ & D).
  { apply Forall_app. split; [exact F|]. clear. induction n; cbn; constructor; cbn; auto. }
  assert (K : level_of (ws ++ repeat (Literal (Static [])) n) = level_of ws /\
    overtaken (ws ++ repeat (Literal (Static [])) n) = overtaken ws).
  { assert (K0 : existsb is_line (repeat (@Literal LI (Static [])) n) = false) by (clear; induction n; cbn; auto).
    clear - K0. induction ws as [|x ws [I1 I2]].
    - clear K0. cbn [app]. split; induction n; cbn; auto.
    - cbn [app]. destruct x; cbn [level_of overtaken]; rewrite ?I1, ?I2; auto.
      rewrite existsb_app, K0, orb_false_r. auto. }
  destruct K as [K1 K2]. split; [exact A|]. rewrite B, D, K1, K2. auto.
Qed.

Definition header_end (lines : list str) (e : bool * Z * pending) : Prop :=
  exists q, e = (match lines with [] => true | _ => false end, 0%Z, q) /\
    (q = nothing /\ lines = [] \/ q = mk_pending 2 false 0 0).

(** The layout of a body below a header. *)
Lemma gap_layout g a l' n : Forall (fun x => a_text x = []) g -> visible a = true ->
  count_spaces g = n + count_spaces (after_last a_line (ALine :: g)) ->
  exists r, r <> [] /\ layout ind (g ++ a :: l') = pad ind (net g) ++ blanks n ++ r /\
    layout_from ind false 0 [ALine] (g ++ a :: l') = [NL; NL] ++ pad ind (net g) ++ r.
Proof.
  intros F V C. unfold layout. rewrite !layout_from_invisible by exact F.
  cbn [app]. rewrite (layout_from_first (mk_config ind []) true) by exact V.
  rewrite (layout_from_first (mk_config ind []) false 0%Z (ALine :: g)) by exact V. cbn [c_indentation net a_indent].
  rewrite !Z.add_0_l. unfold separator. cbn [existsb a_line orb]. rewrite C.
  exists (blanks (count_spaces (after_last a_line (ALine :: g))) ++ layout_from ind false (net g) [] (a :: l')).
  split; [|split].
  - intros X. apply app_eq_nil in X as [_ X]. cbn [layout_from] in X. unfold visible in V.
    destruct (a_text a) as [|ch s]; [discriminate V|]. cbn [net] in X. rewrite Z.add_0_r in X.
    apply app_eq_nil in X as [_ X]. discriminate X.
  - unfold blanks. rewrite repeat_app, <- !app_assoc. reflexivity.
  - rewrite <- !app_assoc. reflexivity.
Qed.
Lemma leads_unique fi (t : tokens LI) ws ws' : leads fi t ws -> leads fi t ws' -> ws = ws'.
Proof.
  assert (N : forall x : item LI, begins_text fi x -> silent fi x -> False).
  { intros [s|p l|p l| | | |n|e| | |]; cbn; auto. }
  intros (x & post & E1 & B1 & F1) (x' & post' & E2 & B2 & F2). rewrite E2 in E1. clear E2.
  revert ws' E1 F2. induction F1 as [|y ws Y F1 IH]; intros [|y' ws'] E1 F2; cbn in E1; auto.
  - injection E1 as -> _. apply Forall_cons_iff in F2 as [F2 _]. destruct (N _ B1 F2).
  - injection E1 as -> _. destruct (N _ B2 Y).
  - injection E1 as -> E1. apply Forall_cons_iff in F2 as [_ F2]. f_equal. eauto.
Qed.

(** Every stream that renders has a body below a header. *)
Lemma carried_some t l rest body : (forall e, concat (l_open_quote ops e) <> []) ->
  E ops cfg false [frame0] (items t) = (l, rest, true) -> body = text nl (layout ind l) -> body <> [] ->
  exists ws r, leads (l_format_item ops) t ws /\ r <> [] /\
    layout ind l = pad ind (level_of ws) ++ blanks (overtaken ws) ++ r /\
    layout_from ind false 0 [ALine] l = [NL; NL] ++ pad ind (level_of ws) ++ r.
Proof.
  intros Q EE EB NB.
  destruct (first_text (items t) Q l rest EE) as (ws & x & post & E1 & E2 & E3 & E4).
  { intros Z. apply NB. rewrite EB, Z. reflexivity. }
  destruct (opens_gap l ws E3 E4) as (g & a & l' & -> & V & F & NG & C).
  destruct (gap_layout g a l' _ F V C) as (r & R1 & R2 & R3). exists ws, r.
  rewrite <- NG. split; [exists x, post; auto|]. auto.
Qed.
Lemma last_text l : forall first lvl gap p r, layout_from ind first lvl gap l = p ++ r -> r <> [] -> text nl r <> [].
Proof.
  intros first lvl gap p r E N.
  assert (K : exists s ch, layout_from ind first lvl gap l = s ++ [Ch ch]).
  { assert (NE : layout_from ind first lvl gap l <> []).
    { rewrite E. intros X. apply app_eq_nil in X as [_ X]. auto. }
    clear E N. revert first lvl gap NE. induction l as [|a l IH]; intros first lvl gap NE; cbn [layout_from] in *; [contradiction|].
    destruct (a_text a) as [|c0 s0]; [apply IH; exact NE|].
    destruct (layout_from ind false (lvl + net gap) [] l) as [|y ys] eqn:EL.
    - rewrite app_nil_r. assert (SN : c0 :: s0 <> []) by discriminate. destruct (exists_last SN) as (s & ch & ->).
      rewrite map_app. cbn [map]. exists (separator ind first (lvl + net gap) gap ++ map Ch s), ch. rewrite app_assoc. reflexivity.
    - destruct (IH false (lvl + net gap)%Z []) as (s & ch & X); [rewrite EL; discriminate|].
      rewrite <- EL, X. exists (separator ind first (lvl + net gap) gap ++ map Ch (c0 :: s0) ++ s), ch.
      rewrite <- !app_assoc. reflexivity. }
  destruct K as (s & ch & K). destruct (exists_last N) as (r' & y & ->). rewrite K, app_assoc in E.
  apply app_inj_tail in E as [_ <-]. rewrite text_app. cbn. intros X. apply app_eq_nil in X as [_ X]. discriminate.
Qed.
Lemma carried_layout t l rest body body' : (forall e, concat (l_open_quote ops e) <> []) ->
  E ops cfg false [frame0] (items t) = (l, rest, true) -> body = text nl (layout ind l) ->
  carried (l_format_item ops) ind t body body' ->
  body = [] /\ body' = [] \/
  body' <> [] /\ text nl (layout_from ind false 0 [ALine] l) = nl ++ nl ++ body'.
Proof.
  intros Q EE EB [C|(ws & rest' & LD & NR & B & B')]; [auto|]. right.
  split. { rewrite B'. intros X. apply app_eq_nil in X as [_ X]. auto. }
  destruct (carried_some t l rest body Q EE EB) as (ws' & r & LD' & _ & R2 & R3).
  { rewrite B. intros X. apply app_eq_nil in X as [_ X]. apply app_eq_nil in X as [_ X]. auto. }
  assert (ws' = ws) by (eapply leads_unique; eauto). subst ws'.
  rewrite R3, !text_app, pad_text, text_chars. cbn [text flat_map sym_text]. rewrite app_nil_r, B', <- app_assoc. do 3 f_equal.
  rewrite EB, R2, !text_app, pad_text, text_chars, blanks_text, text_chars in B.
  apply app_inv_head, app_inv_head in B. exact B.
Qed.
Lemma carried_exists t body : (forall e, concat (l_open_quote ops e) <> []) -> renders L cfg c f t body ->
  exists body', carried (l_format_item ops) ind t body body'.
Proof.
  intros Q R. destruct (renders_atoms t body R) as (l & rest & EE & EB & _).
  destruct body as [|b body]; [exists []; left; auto|]. 
  destruct (carried_some t l rest (b :: body) Q EE EB) as (ws & r & LD & NR & R2 & R3); [discriminate|].
  eexists. right. exists ws, (text nl r). split; [exact LD|]. split; [|split; [|reflexivity]].
  - unfold layout in R2. rewrite app_assoc in R2. eapply last_text; eauto.
  - rewrite EB, R2, !text_app, pad_text, text_chars, blanks_text, text_chars. reflexivity.
Qed.
Lemma clean_overtaken (ws : list (item LI)) : (forall a b, ws = a ++ Space :: b -> ~ In Line b) -> overtaken ws = 0.
Proof.
  induction ws as [|x ws IH]; intros C; [reflexivity|].
  assert (I : overtaken ws = 0). { apply IH. intros a b -> . apply (C (x :: a) b). reflexivity. }
  destruct x; cbn [overtaken]; auto. rewrite I.
  destruct (existsb is_line ws) eqn:X; [|reflexivity]. apply existsb_exists in X as [y [Hy Ey]].
  destruct y; try discriminate. destruct (C [] ws eq_refl Hy).
Qed.
Lemma carried_clean t body : (forall e, concat (l_open_quote ops e) <> []) -> renders L cfg c f t body ->
  (body <> [] -> clean_start (l_format_item ops) t) -> carried (l_format_item ops) ind t body body.
Proof.
  intros Q R CS. destruct (carried_exists t body Q R) as [body' C].
  destruct C as [[-> ->]|(ws & rest & LD & NR & B & B')]; [left; auto|]. right. exists ws, rest.
  split; [exact LD|]. split; [exact NR|]. split; [exact B|].
  destruct CS as (ws' & x & post & E1 & E2 & E3 & E4).
  { rewrite B. intros X. apply app_eq_nil in X as [_ X]. apply app_eq_nil in X as [_ X]. auto. }
  assert (ws' = ws).
  { eapply leads_unique; [|exact LD]. exists x, post. split; [exact E1|]. split; [exact E2|].
    eapply Forall_impl; [|exact E3]. intros y [W|(p & l & ->)]; [|exact Logic.I]. destruct y; try discriminate; exact Logic.I. }
  subst ws'. rewrite clean_overtaken in B by exact E4. exact B.
Qed.
Lemma placed_same lines body : placed_file nl lines body body = file_text nl lines body.
Proof. unfold placed_file. destruct lines; reflexivity. Qed.

Lemma file_of_header t header hs lines e body body' :
  (forall e, concat (l_open_quote ops e) <> []) ->
  ld_format_file L t c = [(header, f); (t, f)] ->
  Forall (good_hact ops cfg) hs -> ritems header = hrun hs [] ->
  hist ops cfg true 0%Z nothing hs = (join_lines lines, e) -> header_end lines e ->
  renders L cfg c f t body -> carried (l_format_item ops) ind t body body' ->
  file_renders L cfg c t (placed_file nl lines body body').
Proof.
  intros Q EF G EH HH (q & -> & HQ) R CS.
  destruct (renders_atoms t body R) as (l & rest & EE & EB & FR).
  assert (HQ' : q = nothing /\ match lines with [] => true | _ => false end = true \/ q = mk_pending 2 false 0 0).
  { destruct HQ as [[-> ->]| ->]; auto. }
  destruct (header_run ops cfg hs header _ _ _ G EH HQ' HH) as (ns & E1 & E2 & E3).
  assert (OUT : file_renders L cfg c t (text nl (layout ind (doc_atoms ops cfg ns ++ l)) ++ nl)).
  { unfold file_renders, format_file. rewrite EF. cbn [format_streams].
    assert (FH : forall st, format L string_writer cfg header c f st = run_atoms string_writer cfg (doc_atoms ops cfg ns) st).
    { intros st. unfold format. rewrite E1. apply format_doc; auto. }
    assert (FS : forall st, and_then (format L string_writer cfg header c f st)
        (fun st => and_then (format L string_writer cfg t c f st) (fun st => (st, true))) =
      run_atoms string_writer cfg (doc_atoms ops cfg ns ++ l) st).
    { intros st. rewrite FH, run_atoms_app.
      destruct (run_atoms string_writer cfg (doc_atoms ops cfg ns) st) as [s1 [|]]; cbn; [|reflexivity].
      rewrite FR. destruct (run_atoms string_writer cfg l s1) as [s2 [|]]; reflexivity. }
    rewrite FS.
    match goal with |- context [run_atoms _ _ ?l _] =>
      destruct (run_string_new cfg l []) as [st' [R1 R2]] end.
    unfold str in *. rewrite R1. cbn. unfold outcome, write_trailing_line, on_write. cbn. rewrite R2. reflexivity. }
  rewrite E3 in OUT. rewrite text_app, text_join in OUT. unfold placed_file, file_text.
  destruct lines as [|ln lines].
  - cbn [stack app] in OUT. rewrite EB. exact OUT.
  - destruct (carried_layout t l rest body body' Q EE EB CS) as [[Z1 Z2]|Z].
    + rewrite (layout_from_empty _ nl l true 0%Z []) in OUT.
      2: { rewrite Z1 in EB. symmetry in EB. exact EB. }
      cbn [text flat_map] in OUT. rewrite app_nil_r in OUT. rewrite Z2. exact OUT.
    + destruct Z as [Z1 Z2]. rewrite Z2 in OUT. destruct body' as [|b body']; [contradiction|]. exact OUT.
Qed.
End Files.

(** ** Building headers *)

Section Build.
Context {LI : Type} (ops : lang_ops LI) (cfg : config).

Lemma hrun_app a b (r : list (item LI)) : hrun (a ++ b) r = hrun b (hrun a r).
Proof. unfold hrun. apply fold_left_app. Qed.
Lemma for_each_hrun {A} (step : A -> tokens LI -> tokens LI) (h : A -> list (@hact LI)) xs :
  (forall x t, ritems (step x t) = hrun (h x) (ritems t)) ->
  forall t, ritems (for_each step xs t) = hrun (flat_map h xs) (ritems t).
Proof.
  intros H. unfold for_each. induction xs as [|x xs IH]; intros t; cbn [fold_left flat_map]; [reflexivity|].
  rewrite IH, H, hrun_app. reflexivity.
Qed.

(** Lines of text, each followed or preceded by a push, then a blank line. *)
Definition after_style (ls : list (list (@hact LI) * str)) : list hact :=
  match ls with [] => [] | _ => flat_map (fun p => fst p ++ [HReq TPush]) ls ++ [HReq TLine] end.
Definition before_style (ls : list (list (@hact LI) * str)) : list hact :=
  match ls with [] => [] | _ => flat_map (fun p => HReq TPush :: fst p) ls ++ [HReq TLine] end.

Lemma after_style_hist ls : Forall (fun p => writes ops cfg (fst p) (snd p)) ls ->
  Forall (good_hact ops cfg) (after_style ls) /\
  hist ops cfg true 0%Z nothing (after_style ls) = (join_lines (map snd ls), match ls with [] => (true, 0%Z, nothing) | _ => (false, 0%Z, mk_pending 2 false 0 0) end).
Proof.
  intros F. destruct ls as [|p ls]; [split; [constructor|reflexivity]|].
  unfold after_style. split.
  - apply Forall_app. split; [apply each_push_good; auto|]. constructor; auto. discriminate.
  - rewrite hist_app, hist_each_push by (auto; discriminate). cbn [hist]. 
    rewrite app_nil_r. cbn [gap_text]. unfold gap_text. cbn [nothing p_space p_frozen Nat.add].
    unfold pad. change (Z.to_nat (Z.max 0 0)) with 0. destruct (c_indentation cfg); reflexivity.
Qed.
Lemma before_style_hist ls : Forall (fun p => writes ops cfg (fst p) (snd p)) ls ->
  Forall (good_hact ops cfg) (before_style ls) /\
  hist ops cfg true 0%Z nothing (before_style ls) = (join_lines (map snd ls), match ls with [] => (true, 0%Z, nothing) | _ => (false, 0%Z, mk_pending 2 false 0 0) end).
Proof.
  intros F. destruct ls as [|p ls]; [split; [constructor|reflexivity]|].
  unfold before_style. split.
  - apply Forall_app. split; [apply push_each_good; auto|]. constructor; auto. discriminate.
  - rewrite hist_app, hist_push_each by (auto; discriminate). cbn [hist].
    rewrite app_nil_r. unfold gap_text. cbn [request nothing p_space p_frozen Nat.add].
    unfold pad. change (Z.to_nat (Z.max 0 0)) with 0. destruct (c_indentation cfg); reflexivity.
Qed.

Lemma line_hrun (t : tokens LI) : ritems (line t) = hrun [HReq TLine] (ritems t).
Proof. destruct t; reflexivity. Qed.
Lemma after_header {A} (step : A -> tokens LI -> tokens LI) acts (line_of : A -> str) ks :
  (forall x t, ritems (step x t) = hrun (acts x ++ [HReq TPush]) (ritems t)) ->
  ks <> [] -> forall t, ritems (line (for_each step ks t)) =
    hrun (after_style (map (fun k => (acts k, line_of k)) ks)) (ritems t).
Proof.
  intros H NE t. rewrite line_hrun, (for_each_hrun step (fun x => acts x ++ [HReq TPush])) by auto.
  rewrite <- hrun_app. f_equal. unfold after_style. destruct ks as [|k ks]; [congruence|].
  cbn [map flat_map fst]. do 2 f_equal. induction ks; cbn; [|rewrite IHks]; auto. discriminate.
Qed.
Lemma before_header {A} (step : A -> tokens LI -> tokens LI) acts (line_of : A -> str) ks :
  (forall x t, ritems (step x t) = hrun (HReq TPush :: acts x) (ritems t)) ->
  ks <> [] -> forall t, ritems (line (for_each step ks t)) =
    hrun (before_style (map (fun k => (acts k, line_of k)) ks)) (ritems t).
Proof.
  intros H NE t. rewrite line_hrun, (for_each_hrun step (fun x => HReq TPush :: acts x)) by auto.
  rewrite <- hrun_app. f_equal. unfold before_style. destruct ks as [|k ks]; [congruence|].
  cbn [map flat_map fst]. do 2 f_equal. induction ks; cbn; [|rewrite IHks]; auto. discriminate.
Qed.
Lemma keyed_writes {A} acts (line_of : A -> str) ks : Forall (fun k => writes ops cfg (acts k) (line_of k)) ks ->
  Forall (fun p => writes ops cfg (fst p) (snd p)) (map (fun k => (acts k, line_of k)) ks).
Proof. induction 1; constructor; auto. Qed.
Lemma keyed_lines {A} (acts : A -> list (@hact LI)) (line_of : A -> str) ks :
  map snd (map (fun k => (acts k, line_of k)) ks) = map line_of ks.
Proof. rewrite map_map. reflexivity. Qed.

Lemma style_end (ls : list (list (@hact LI) * str)) :
  header_end (map snd ls)
    (match ls with [] => (true, 0%Z, nothing) | _ => (false, 0%Z, mk_pending 2 false 0 0) end).
Proof. destruct ls; eexists; split; try reflexivity; auto. Qed.
End Build.

Section Styles.
Context {LI Config Format : Type} (L : lang_def LI Config Format) (cfg : config) (c : Config) (f : Format).
Notation ops := (ld_ops L c f).
Notation nl := (c_newline cfg).
Context {A : Type} (acts : A -> list (@hact LI)) (line_of : A -> str) (ks : list A).
Notation styled := (map (fun k => (acts k, line_of k)) ks).
Hypothesis W : Forall (fun k => writes ops cfg (acts k) (line_of k)) ks.
Hypothesis Q : forall e, concat (l_open_quote ops e) <> [].
Context (t header : tokens LI) (body body' : str).
Hypothesis F : ld_format_file L t c = [(header, f); (t, f)].
Hypothesis R : renders L cfg c f t body.
Hypothesis CS : carried (l_format_item ops) (c_indentation cfg) t body body'.

Lemma file_after : ritems header = hrun (after_style styled) [] ->
  file_renders L cfg c t (placed_file nl (map line_of ks) body body').
Proof.
  intros H. destruct (after_style_hist ops cfg styled) as [G HH]; [apply keyed_writes; auto|].
  rewrite keyed_lines in HH. eapply file_of_header; eauto.
  rewrite <- (keyed_lines acts line_of). apply style_end.
Qed.
Lemma file_before : ritems header = hrun (before_style styled) [] ->
  file_renders L cfg c t (placed_file nl (map line_of ks) body body').
Proof.
  intros H. destruct (before_style_hist ops cfg styled) as [G HH]; [apply keyed_writes; auto|].
  rewrite keyed_lines in HH. eapply file_of_header; eauto.
  rewrite <- (keyed_lines acts line_of). apply style_end.
Qed.
End Styles.
