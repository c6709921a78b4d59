(** * Lemmas: the layout of the Nix header. *)
From Verif Require Import Str StrFacts Tokens SpecTokens TokensRun TokensFacts Values ValuesFacts AlgebraFacts Fmt SpecFmt FmtFacts
  RenderFacts LayoutFacts WriterFacts HistoryFacts OutputFacts Order OrderFacts SpecOrder SpecFile HeaderFacts FileFacts
  SpecLang ImportFacts PickFacts JavaFacts BlockFacts GroupFacts PythonFacts JsFacts LangBase LangNix SpecNix NixFacts.

(** ** Lines *)
Lemma join_lines_app a b : a <> [] -> b <> [] -> join_lines (a ++ b) = join_lines a ++ NL :: join_lines b.
Proof.
  intros Ha Hb. induction a as [|x a IH]; [congruence|]. destruct a as [|y a].
  - cbn. destruct b; [congruence|reflexivity].
  - cbn [app join_lines]. cbn [app join_lines] in IH. rewrite IH by discriminate. rewrite <- app_assoc. reflexivity.
Qed.
Lemma join_sym_lines o : join_lines (sym_lines o) = o.
Proof.
  induction o as [|[c|] o IH]; [reflexivity| |].
  - cbn [sym_lines]. pose proof (WriterFacts.sym_lines_nonempty o). destruct (sym_lines o) as [|l [|l2 ls]]; [congruence| |];
      cbn in *; rewrite IH; reflexivity.
  - cbn [sym_lines]. pose proof (WriterFacts.sym_lines_nonempty o). destruct (sym_lines o) as [|l ls]; [congruence|].
    cbn in *. rewrite IH. reflexivity.
Qed.
Lemma sym_lines_app_chars o s : sym_lines (o ++ map Ch s) = after_last_line s (sym_lines o).
Proof.
  induction o as [|[c|] o IH]; cbn [app sym_lines].
  - rewrite <- (app_nil_r (map Ch s)), sym_lines_chars. cbn. rewrite app_nil_r. reflexivity.
  - rewrite IH. pose proof (WriterFacts.sym_lines_nonempty o). destruct (sym_lines o) as [|l [|l2 ls]]; [congruence| |]; reflexivity.
  - rewrite IH. pose proof (WriterFacts.sym_lines_nonempty o). destruct (sym_lines o) as [|l ls]; [congruence|]. reflexivity.
Qed.
Lemma after_last_nonempty s ls : after_last_line s ls <> [].
Proof. destruct ls as [|l [|? ?]]; discriminate. Qed.

(** ** Blocks at a level *)
Section Blocks.
Context {LI : Type} (ops : lang_ops LI) (cfg : config).
Notation ind := (c_indentation cfg).

(** Acts that start with text and write [o] at a level. *)
Definition writes_at (lvl : Z) (hs : list (@hact LI)) (o : list sym) : Prop :=
  Forall (good_hact ops cfg) hs /\ forall first lvl0 p, (lvl0 + p_indent p)%Z = lvl ->
  hist ops cfg first lvl0 p hs = (gap_text ind first lvl p ++ o, (false, lvl, nothing)).
Lemma writes_writes_at lvl hs s : writes ops cfg hs s -> writes_at lvl hs (map Ch s).
Proof. intros [G H]. split; auto. intros first lvl0 p <-. apply H. Qed.

Lemma hist_blocks lvl (bs : list (list (@hact LI) * list sym)) :
  Forall (fun b => writes_at lvl (fst b) (snd b)) bs -> bs <> [] ->
  forall first lvl0 q, (lvl0 + p_indent q)%Z = lvl ->
  exists o, hist ops cfg first lvl0 q (flat_map (fun b => fst b ++ [HReq TPush]) bs) =
    (gap_text ind first lvl q ++ o, (false, lvl, mk_pending 1 false 0 0)) /\
  forall lines, Forall2 (fun b ls => pad ind lvl ++ snd b = join_lines ls /\ ls <> []) bs lines ->
    pad ind lvl ++ o = join_lines (concat lines).
Proof.
  induction 1 as [|[h b] bs [G H] F IH]; intros NE first lvl0 q Q; [congruence|].
  cbn [flat_map fst snd] in *. rewrite hist_app, hist_app, H by auto. cbn [hist request nothing].
  change (mk_pending (Nat.max 0 1) false 0 0) with (mk_pending 1 false 0 0).
  rewrite app_nil_r. destruct bs as [|b2 bs].
  - exists b. split; [cbn; rewrite app_nil_r; reflexivity|].
    intros lines F2. inversion F2 as [|? ls ? ? [E _] F3]; subst. inversion F3; subst. cbn in *. rewrite app_nil_r. auto.
  - destruct (IH ltac:(discriminate) false lvl (mk_pending 1 false 0 0)) as (o & E1 & E2); [cbn; lia|].
    cbn [nothing p_breaks p_frozen p_indent]. change (Nat.max 0 1) with 1. rewrite E1.
    exists (b ++ NL :: pad ind lvl ++ o). split.
    + rewrite <- !app_assoc. do 2 f_equal. unfold gap_text. cbn [p_space p_breaks Nat.eqb repeat].
      cbn. rewrite app_nil_r, <- ?app_assoc. reflexivity.
    + intros lines F2. inversion F2 as [|? ls ? lines' [E N] F3]; subst. cbn [concat snd] in *.
      rewrite join_lines_app; [rewrite <- E, <- (E2 _ F3), <- !app_assoc; reflexivity|auto|].
      inversion F3 as [|? ls' ? ? [_ N'] _]; subst. cbn. destruct ls'; [congruence|discriminate].
Qed.
Lemma blocks_good lvl bs : Forall (fun b => writes_at lvl (fst b) (snd b)) bs ->
  Forall (good_hact ops cfg) (flat_map (fun b => fst b ++ [HReq TPush]) bs).
Proof.
  induction 1 as [|[h b] bs [G _] F IH]; cbn [flat_map]; auto. rewrite !Forall_app. repeat split; auto.
  constructor; auto. discriminate.
Qed.

(** ** Sections *)

(** A header so far: its lines; a blank line pending if there are any. *)
Definition header_state (hs : list (@hact LI)) (lines : list str) : Prop :=
  Forall (good_hact ops cfg) hs /\
  hist ops cfg true 0%Z nothing hs =
    (join_lines lines,
     match lines with [] => (true, 0%Z, nothing) | _ => (false, 0%Z, mk_pending 2 false 0 0) end).
(** A section: ends with a blank line request. *)
Definition section (hs : list (@hact LI)) (lines : list str) : Prop :=
  Forall (good_hact ops cfg) hs /\ lines <> [] /\ forall first q, p_indent q = 0%Z ->
  hist ops cfg first 0%Z q hs = (gap_text ind first 0 q ++ join_lines lines, (false, 0%Z, mk_pending 2 false 0 0)).
Lemma pad_0 : pad ind 0 = [].
Proof. destruct ind; reflexivity. Qed.
Lemma header_none : header_state [] [].
Proof. split; [constructor|reflexivity]. Qed.
Lemma header_section hs lines hs' lines' : header_state hs lines -> section hs' lines' ->
  header_state (hs ++ hs') (match lines with [] => lines' | _ => lines ++ [] :: lines' end).
Proof.
  intros [G1 H1] [G2 [NE H2]]. split; [apply Forall_app; auto|]. rewrite hist_app, H1.
  destruct lines as [|l ls].
  - rewrite H2 by auto. unfold gap_text. cbn [nothing p_space p_frozen]. rewrite pad_0. cbn.
    destruct lines'; [congruence|reflexivity].
  - rewrite H2 by auto. unfold gap_text. cbn [p_space p_breaks Nat.eqb repeat app]. rewrite pad_0. cbn [app blanks repeat].
    assert (J := join_lines_app (l :: ls) ([] :: lines') ltac:(discriminate) ltac:(discriminate)).
    cbn [app] in J. rewrite J. destruct lines'; [congruence|reflexivity].
Qed.

(** Lines at the left margin, each followed by a push, then a blank line. *)
Lemma section_lines (ls : list (list (@hact LI) * str)) : ls <> [] ->
  Forall (fun p => writes ops cfg (fst p) (snd p)) ls ->
  section (flat_map (fun p => fst p ++ [HReq TPush]) ls ++ [HReq TLine]) (map snd ls).
Proof.
  intros NE F. split; [|split].
  - apply Forall_app. split; [apply each_push_good; auto|]. constructor; auto. discriminate.
  - destruct ls; [congruence|discriminate].
  - intros first q Q. rewrite hist_app, hist_each_push by auto. cbn. rewrite app_nil_r. reflexivity.
Qed.

(** An indented block between two lines. *)
Lemma section_block a sa bs lines b sb : writes ops cfg a sa -> writes ops cfg b sb ->
  Forall (fun b => writes_at 1 (fst b) (snd b)) bs -> bs <> [] ->
  Forall2 (fun b ls => pad ind 1 ++ snd b = join_lines ls /\ ls <> []) bs lines ->
  section (a ++ [HReq TPush; HReq TIndent] ++ flat_map (fun b => fst b ++ [HReq TPush]) bs ++
           [HReq TUnindent] ++ b ++ [HReq TPush; HReq TLine]) (sa :: concat lines ++ [sb]).
Proof.
  intros [GA HA] [GB HB] F NE F2. split; [|split].
  - rewrite !Forall_app. repeat split; auto; try (repeat constructor; discriminate). eapply blocks_good; eauto.
  - discriminate.
  - intros first q Q. rewrite hist_app, HA, Q. cbn [Z.add app hist request nothing change_indent p_indent p_breaks p_frozen Nat.max].
    change (Z.eqb (0 + 1) 0) with false. cbn iota. cbn [Z.add].
    rewrite hist_app. destruct (hist_blocks 1 bs F NE false 0%Z (mk_pending 1 false 0 1) eq_refl) as (o & E1 & E2).
    match goal with |- context [hist ops cfg false 0%Z ?q (flat_map _ bs)] => change q with (mk_pending 1 false 0 1) end.
    rewrite E1. specialize (E2 _ F2).
    cbn [app hist request change_indent p_indent]. change (Z.eqb (0 + -1) 0) with false. cbn iota.
    rewrite hist_app, HB. cbn [p_indent Z.add]. change (1 + -1)%Z with 0%Z.
    cbn [hist request nothing p_breaks p_space p_frozen p_indent]. cbn [Nat.max Nat.add].
    f_equal. rewrite app_nil_r, <- !app_assoc. f_equal. unfold gap_text. cbn [p_breaks p_space Nat.eqb repeat].
    change (change_indent (-1) {| p_breaks := 1; p_space := false; p_frozen := 0; p_indent := 0 |})
      with (mk_pending 1 false 0 (-1)). cbn [p_breaks p_space p_indent Nat.eqb repeat]. change (Z.pos_sub 1 1) with 0%Z.
    rewrite pad_0. cbn [app blanks repeat]. rewrite ?app_nil_r.
    change (sa :: concat lines ++ [sb]) with ([sa] ++ concat lines ++ [sb]).
    assert (NL1 : concat lines <> []).
    { inversion F2 as [|? ls ? ? [_ N] _]; subst; [congruence|]. cbn. destruct ls; [congruence|discriminate]. }
    rewrite join_lines_app; [|discriminate|destruct (concat lines); discriminate].
    rewrite join_lines_app by (auto; discriminate). rewrite <- E2, <- !app_assoc. reflexivity.
Qed.
End Blocks.

(** ** Streams up to links *)
Section Erased.
Context {LI : Type}.
Notation bare := (map (@erase LI)).
Lemma push_loop_bare (r : list (item LI)) : bare (push_loop r) = push_loop (bare r).
Proof. induction r as [|x r IH]; [reflexivity|]. destruct x; cbn; auto. Qed.
Lemma line_loop_bare (r : list (item LI)) : bare (line_loop r) = line_loop (bare r).
Proof. induction r as [|x r IH]; [reflexivity|]. destruct x; cbn; auto. Qed.
Lemma indentation_loop_bare (r : list (item LI)) : forall n, bare (indentation_loop n r) = indentation_loop n (bare r).
Proof. induction r as [|x r IH]; intros n; cbn; [destruct (Z.eqb n 0); reflexivity|]. destruct x; cbn; auto; destruct (Z.eqb n 0); reflexivity. Qed.
Lemma space_bare (r : list (item LI)) k : bare (ritems (space (mk_tokens r k))) = ritems (space (mk_tokens (bare r) k)).
Proof. destruct r as [|[] r]; reflexivity. Qed.
Lemma hrun1_bare (r1 r2 : list (item LI)) h : bare r1 = bare r2 -> bare (hrun1 r1 h) = bare (hrun1 r2 h).
Proof.
  intros E. destruct h as [ns|a]; cbn [hrun1].
  - rewrite !map_app, E. reflexivity.
  - destruct a; cbn [act_call run_call].
    + cbn. rewrite E. reflexivity.
    + rewrite !space_bare, E. reflexivity.
    + cbn. rewrite !push_loop_bare, E. reflexivity.
    + cbn. rewrite !line_loop_bare, E. reflexivity.
    + cbn. rewrite !indentation_loop_bare, E. reflexivity.
    + cbn. rewrite !indentation_loop_bare, E. reflexivity.
Qed.
Lemma hrun_bare hs : forall r1 r2 : list (item LI), bare r1 = bare r2 -> bare (hrun hs r1) = bare (hrun hs r2).
Proof.
  induction hs as [|h hs IH]; intros r1 r2 E; [exact E|]. cbn [hrun fold_left].
  change (fold_left hrun1 hs ?r) with (hrun hs r). apply IH, hrun1_bare, E.
Qed.
End Erased.

Section EFiles.
Context {LI Config Format : Type} (L : lang_def LI Config Format) (cfg : config) (c : Config) (f : Format).
Notation ops := (ld_ops L c f).
Lemma file_of_sections t header hs lines body body' :
  (forall e, concat (l_open_quote ops e) <> []) ->
  ld_format_file L t c = [(header, f); (t, f)] ->
  map erase (ritems header) = map erase (hrun hs []) ->
  header_state ops cfg hs lines ->
  renders L cfg c f t body -> carried (l_format_item ops) (c_indentation cfg) t body body' ->
  file_renders L cfg c t (placed_file (c_newline cfg) lines body body').
Proof.
  intros Q EF EH [G HH] R CS.
  set (header' := mk_tokens (hrun hs []) 0).
  set (L' := {| ld_indentation := ld_indentation L; ld_ops := ld_ops L; ld_default_config := ld_default_config L;
                ld_default_format := ld_default_format L;
                ld_format_file := fun _ _ => [(header', f); (t, f)] |}).
  assert (X : file_renders L' cfg c t (placed_file (c_newline cfg) lines body body')).
  { eapply (file_of_header L' cfg c f t header' hs); try eassumption; try reflexivity.
    destruct lines; eexists; split; try reflexivity; auto. }
  unfold file_renders, format_file in *. rewrite EF. cbn [ld_format_file L' format_streams] in X.
  assert (FH : forall st, format L string_writer cfg header c f st = format L' string_writer cfg header' c f st).
  { intros st. unfold format. cbn [ld_ops L']. rewrite <- format_erase, <- (format_erase _ _ _ (items header')).
    unfold items, header'. cbn [ritems]. rewrite !map_rev, EH. reflexivity. }
  cbn [format_streams]. rewrite FH. exact X.
Qed.
End EFiles.

(** ** The header *)
Section Nix.
Context (cfg : config) (scoped : bool).
Notation ops := (ld_ops nix_lang scoped tt).
Notation ind := (c_indentation cfg).
Notation P := (indent_text ind 1).

Lemma nix_quotes : l_open_quote ops false = [[34%N]] /\ l_close_quote ops false = [[34%N]].
Proof. split; reflexivity. Qed.

Lemma text_block hs s : s <> [] -> writes ops cfg hs s ->
  writes_at ops cfg 1 hs (map Ch s) /\ pad ind 1 ++ map Ch s = join_lines [indent_line P s].
Proof.
  intros N W. split; [apply writes_writes_at; auto|]. cbn [join_lines].
  rewrite pad_text, <- map_app, indent_line_some; auto.
Qed.

(** Arguments. *)
Definition arg_acts (a : str) : list (@hact nix_import) := [h_text (Box a); h_text (Static $",")].
Lemma arg_ok a : a <> [] -> writes ops cfg (arg_acts a) (a ++ $",").
Proof.
  intros N. unfold arg_acts. apply (w_text ops cfg (Box a)); [exact N|].
  apply (writes_text ops cfg (Static $",")). discriminate.
Qed.
Definition arg_blocks (args : list str) : list (list (@hact nix_import) * list sym) :=
  map (fun a => (arg_acts a, map Ch (a ++ $","))) args ++ [([h_text (Box $"...")], map Ch $"...")].
Definition args_acts (args : list str) : list (@hact nix_import) :=
  [h_text (Box $"{")] ++ [HReq TPush; HReq TIndent] ++
  flat_map (fun b => fst b ++ [HReq TPush]) (arg_blocks args) ++
  [HReq TUnindent] ++ [h_text (Box $"}:")] ++ [HReq TPush; HReq TLine].
Lemma args_run t out : ritems (nix_arguments t out) = hrun (args_acts (nix_args t)) (ritems out).
Proof.
  unfold nix_arguments. rewrite nix_args_eq. unfold args_acts, arg_blocks.
  rewrite flat_map_app. rewrite !hrun_app.
  assert (E : forall args o, ritems (for_each (fun a out => out |> txt a |> st $"," |> push) args o) =
     hrun (flat_map (fun b => fst b ++ [HReq TPush]) (map (fun a => (arg_acts a, map Ch (a ++ $","))) args)) (ritems o)).
  { intros args o. rewrite (for_each_hrun _ (fun a => arg_acts a ++ [HReq TPush])) by (intros; reflexivity).
    f_equal. induction args; cbn [flat_map map fst]; [|rewrite IHargs]; auto. }
  match goal with |- ritems (?x |> txt $"..." |> push |> unindent |> txt $"}:" |> push |> line) = _ =>
    change (hrun [HReq TPush; HReq TLine] (hrun [h_text (Box $"}:")] (hrun [HReq TUnindent]
      (hrun (flat_map (fun b : list (@hact nix_import) * list sym => fst b ++ [HReq TPush]) [([h_text (Box $"...")], map Ch $"...")]) (ritems x)))) =
      hrun [HReq TPush; HReq TLine] (hrun [h_text (Box $"}:")] (hrun [HReq TUnindent]
      (hrun (flat_map (fun b : list (@hact nix_import) * list sym => fst b ++ [HReq TPush]) [([h_text (Box $"...")], map Ch $"...")])
       (hrun (flat_map (fun b => fst b ++ [HReq TPush]) (map (fun a => (arg_acts a, map Ch (a ++ $","))) (nix_args t)))
         (hrun [HReq TPush; HReq TIndent] (hrun [h_text (Box $"{")] (ritems out)))))))) end.
  rewrite E. reflexivity.
Qed.
Lemma args_section args : Forall (fun a => a <> []) args ->
  section ops cfg (args_acts args) (nix_arguments_section P args).
Proof.
  intros N. unfold args_acts, nix_arguments_section.
  set (lines := map (fun a => [P ++ a ++ $","]) args ++ [[P ++ $"..."]]).
  assert (E : $"{" :: map (fun a => P ++ a ++ $",") args ++ [P ++ $"..."; $"}:"] = $"{" :: concat lines ++ [$"}:"]).
  { unfold lines. rewrite concat_app, <- app_assoc. cbn. do 2 f_equal. induction args; cbn; [|rewrite IHargs]; auto.
    inversion N; auto. }
  rewrite E. apply section_block.
  - apply (writes_text ops cfg (Box $"{")). discriminate.
  - apply (writes_text ops cfg (Box $"}:")). discriminate.
  - apply Forall_app. split.
    + apply Forall_forall. intros b H. apply in_map_iff in H as [a [<- H]]. rewrite Forall_forall in N.
      apply text_block; [|apply arg_ok; auto]. destruct a; discriminate.
    + constructor; [|constructor]. apply text_block; [discriminate|]. apply (writes_text ops cfg (Box $"...")). discriminate.
  - unfold arg_blocks. destruct args; discriminate.
  - unfold arg_blocks, lines. apply Forall2_app.
    + clear - N. induction N as [|a args Ha N IH]; cbn; constructor; auto. split; [|discriminate]. cbn [snd join_lines].
      rewrite pad_text, <- map_app. reflexivity.
    + constructor; [|constructor]. split; [|discriminate]. cbn [snd join_lines]. rewrite pad_text, <- map_app. reflexivity.
Qed.

(** Withs. *)
Definition with_acts (w : item_str) : list (@hact nix_import) :=
  [h_text (Static $"with"); HReq TSpace; h_text w; h_text (Static $";")].
Lemma with_ok w : named w -> writes ops cfg (with_acts w) ($"with " ++ content w ++ $";").
Proof.
  intros N. eapply writes_eq.
  - apply w_text_space; [discriminate|]. apply w_text; [exact N|]. apply (writes_text ops cfg (Static $";")). discriminate.
  - reflexivity.
Qed.
Definition withs_acts (ws : list item_str) : list (@hact nix_import) :=
  after_style (map (fun k => (with_acts k, $"with " ++ content k ++ $";")) ws).
Lemma withs_run t out : ritems (nix_withs t out) = hrun (withs_acts (nix_ws t)) (ritems out).
Proof.
  unfold nix_withs. rewrite nix_ws_eq. unfold withs_acts. destruct (nix_ws t) as [|w ws]; [reflexivity|].
  apply (after_header (fun name out => out |> st $"with" |> space |> istr name |> st $";" |> push)
     with_acts (fun k => $"with " ++ content k ++ $";")); [|discriminate].
  intros x o. reflexivity.
Qed.
Lemma withs_section w ws : Forall named (w :: ws) ->
  section ops cfg (withs_acts (w :: ws)) (nix_withs_section (w :: ws)).
Proof.
  intros N. set (ks := w :: ws) in *.
  assert (E : nix_withs_section ks = map snd (map (fun k => (with_acts k, $"with " ++ content k ++ $";")) ks))
    by (rewrite map_map; reflexivity).
  rewrite E. apply section_lines; [discriminate|]. apply keyed_writes. eapply Forall_impl; [|exact N]. apply with_ok.
Qed.

(** Let. *)
Definition inherit_acts (k : item_str * item_str) : list (@hact nix_import) :=
  [h_text (Static $"inherit"); HReq TSpace; h_text (Static $"("); h_text (fst k); h_text (Static $")"); HReq TSpace;
   h_text (snd k); h_text (Static $";")].
Lemma inherit_ok k : named (fst k) -> named (snd k) -> writes ops cfg (inherit_acts k) (nix_inherit_line k).
Proof.
  intros N1 N2. eapply writes_eq.
  - apply w_text_space; [discriminate|]. apply w_text; [discriminate|]. apply w_text; [exact N1|].
    apply w_text_space; [discriminate|]. apply w_text; [exact N2|]. apply (writes_text ops cfg (Static $";")). discriminate.
  - unfold nix_inherit_line. reflexivity.
Qed.
Definition var_acts (n : item_str) (doc : list (node nix_import)) : list (@hact nix_import) :=
  [h_text n; HReq TSpace; h_text (Static $"="); HReq TSpace; HDoc doc; h_text (Static $";")].
Lemma visible_layout l : visible_ends l -> layout ind l = layout_from ind false 0 [] l.
Proof.
  intros [[a [l' [-> V]]] _]. unfold layout. rewrite (layout_from_first cfg) by auto. cbn.
  destruct ind; reflexivity.
Qed.
Lemma good_value t doc : items t = doc_items doc -> doc_ok doc = true -> visible_ends (doc_atoms ops cfg doc) ->
  good_doc ops cfg doc.
Proof.
  intros EI OK V. split; [auto|]. split; [|exact V]. rewrite <- EI.
  destruct (last_item ops cfg doc (items t) OK EI V) as (r2 & y & EY & NY). exists r2, y. auto.
Qed.
Lemma layout_then_text ind0 l s : s <> [] -> (exists l' a, l = l' ++ [a] /\ visible a = true) -> forall first lvl gap,
  layout_from ind0 first lvl gap (l ++ [AText s]) = layout_from ind0 first lvl gap l ++ map Ch s.
Proof.
  intros NS [l' [a [-> V]]]. 
  assert (T : forall first lvl gap, layout_from ind0 first lvl gap [a; AText s] = layout_from ind0 first lvl gap [a] ++ map Ch s).
  { intros first lvl gap. unfold visible in V. cbn [layout_from a_text]. destruct (a_text a); [discriminate|].
    destruct s; [congruence|]. cbn. rewrite !app_nil_r, <- app_assoc. reflexivity. }
  induction l' as [|x l' IH]; intros first lvl gap; cbn [app].
  - apply T.
  - cbn [layout_from]. destruct (a_text x); [apply IH|]. rewrite IH, <- !app_assoc. reflexivity.
Qed.
Lemma var_block n doc : named n -> good_doc ops cfg doc -> level_body (doc_atoms ops cfg doc) ->
  let l := doc_atoms ops cfg doc in
  let o := map Ch (content n ++ $" = ") ++ layout_from ind false 1 [] l ++ map Ch $";" in
  writes_at ops cfg 1 (var_acts n doc) o /\
  pad ind 1 ++ o = join_lines (map (indent_line P) (nix_variable_lines (n, sym_lines (layout ind l)))) /\
  map (indent_line P) (nix_variable_lines (n, sym_lines (layout ind l))) <> [].
Proof.
  intros N G [LN LV] l o. change (net l = 0%Z) in LN. change (forall p q, l = p ++ q -> (0 <= net p)%Z) in LV. split; [|split].
  - split.
    + destruct (writes_text ops cfg n N) as [G1 _].
      destruct (writes_text ops cfg (Static $"=") ltac:(discriminate)) as [G2 _].
      destruct (writes_text ops cfg (Static $";") ltac:(discriminate)) as [G3 _].
      inversion G1; inversion G2; inversion G3; subst. unfold var_acts.
      repeat (constructor; auto); intros ?; discriminate.
    + intros first lvl0 p E. unfold var_acts.
      pose proof (w_text_space ops cfg n _ _ N (writes_text ops cfg (Static $"=") ltac:(discriminate))) as [_ W].
      change ([h_text n; HReq TSpace; h_text (Static $"="); HReq TSpace; HDoc doc; h_text (Static $";")]) with
        ([h_text n; HReq TSpace; h_text (Static $"=")] ++ [HReq TSpace; HDoc doc; h_text (Static $";")]).
      rewrite hist_app, W, E. cbn [hist request nothing p_indent p_breaks p_frozen]. fold l. 
      rewrite LN. change (1 + 0 + 0)%Z with 1%Z. change (1 + 0)%Z with 1%Z.
      cbn [h_text doc_atoms flat_map node_atoms atoms_of app content net a_indent].
      change (layout_from ind false 1 [] [AText $";"]) with (map Ch $";").
      unfold o. unfold gap_text at 2 3. cbn [p_space p_breaks nothing Nat.eqb blanks repeat app].
      rewrite app_nil_r. change (1 + 0)%Z with 1%Z.
      rewrite !map_app. cbn [map]. rewrite <- !app_assoc. reflexivity.
  - destruct G as [_ [_ V]]. fold l in V.
    assert (EO : o = map Ch (content n ++ $" = ") ++ layout_from ind false 1 [] (l ++ [AText $";"])).
    { unfold o. rewrite layout_then_text; auto; [discriminate|]. apply V. }
    pose proof (lines_shift ind (l ++ [AText $";"]) (content n ++ $" = ") 0%Z []) as S.
    unfold lines_after in S. rewrite <- !sym_lines_chars in S.
    change (1 + 0)%Z with 1%Z in S. rewrite <- EO in S.
    rewrite layout_then_text in S; [|discriminate|apply V].
    rewrite <- visible_layout in S by auto.
    assert (E2 : sym_lines (map Ch (content n ++ $" = ") ++ layout ind l ++ map Ch $";") =
      nix_variable_lines (n, sym_lines (layout ind l))).
    { rewrite sym_lines_chars, sym_lines_app_chars. unfold nix_variable_lines, surround, glue. cbn [fst snd].
      pose proof (after_last_nonempty $";" (sym_lines (layout ind l))).
      destruct (after_last_line $";" (sym_lines (layout ind l))); [congruence|reflexivity]. }
    rewrite E2 in S. rewrite <- (join_sym_lines (pad ind 1 ++ o)), pad_text, sym_lines_chars, S; [|].
    + unfold nix_variable_lines, surround. cbn [fst snd].
      pose proof (after_last_nonempty $";" (sym_lines (layout ind l))).
      destruct (after_last_line $";" (sym_lines (layout ind l))) as [|x xs]; [congruence|].
      cbn [shift_rest glue map]. f_equal. f_equal. rewrite indent_line_some; auto.
      destruct (content n) as [|? ?] eqn:EN; discriminate.
    + intros p q E. cbn [app] in E. destruct q as [|y q] using rev_ind.
      * rewrite app_nil_r in E. subst p. rewrite HeaderFacts.net_app, LN. cbn. lia.
      * clear IHq. rewrite app_assoc in E. apply app_inj_tail in E as [E _]. rewrite E in LV. specialize (LV p q eq_refl). lia.
  - unfold nix_variable_lines, surround. cbn [fst snd].
    pose proof (after_last_nonempty $";" (sym_lines (layout ind l))).
    destruct (after_last_line $";" (sym_lines (layout ind l))) as [|x xs]; [congruence|discriminate].
Qed.
End Nix.
