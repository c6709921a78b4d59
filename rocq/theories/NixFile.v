(** * Lemmas: files with a Nix header. *)
From Verif Require Import Str StrFacts Tokens SpecTokens TokensRun TokensFacts Values ValuesFacts AlgebraFacts Fmt SpecFmt FmtFacts
  RenderFacts LayoutFacts WriterFacts HistoryFacts OutputFacts Order OrderFacts SpecOrder SpecFile HeaderFacts FileFacts
  SpecLang ImportFacts PickFacts JavaFacts BlockFacts GroupFacts PythonFacts JsFacts LangBase LangNix SpecNix NixFacts NixHeader.

Section Nix.
Context (cfg : config) (scoped : bool).
Notation ops := (ld_ops nix_lang scoped tt).
Notation ind := (c_indentation cfg).
Notation P := (indent_text ind 1).
Notation bare := (map (@erase nix_import)).

Definition var_stream (k : nix_var) : tokens nix_import := nix_value (fst (snd k)) (snd (snd k)).
(** The value of a variable as a document. *)
Definition value_doc (k : nix_var) (doc : list (node nix_import)) : Prop :=
  items (var_stream k) = doc_items doc /\ doc_ok doc = true /\
  visible_ends (doc_atoms ops cfg doc) /\ level_body (doc_atoms ops cfg doc).
Definition made_var (k : nix_var) : Prop := exists cs, var_stream k = build cs.

Definition var_step : nix_var -> tokens nix_import -> tokens nix_import :=
  fun '(name, (value, last)) out =>
  out |> istr name |> space |> st $"=" |> space
      |> append (VTokens (nix_value value last)) |> st $";" |> push.
Lemma var_step_run k doc (o : tokens nix_import) r : value_doc k doc -> made_var k -> wf o ->
  bare (ritems o) = bare r ->
  wf (var_step k o) /\
  bare (ritems (var_step k o)) = bare (hrun (var_acts (fst k) doc ++ [HReq TPush]) r).
Proof.
  destruct k as [n [v l]]. intros (EI & OK & V & _) [cs EM] W E. unfold var_stream in *. cbn [fst snd] in *.
  set (b := nix_value v l) in *.
  assert (Wb : wf b) by (rewrite EM; apply build_wf). assert (Cb : rcanon (ritems b)) by (rewrite EM; apply build_canon).
  set (pre := o |> istr n |> space |> st $"=" |> space).
  assert (Wp : wf pre).
  { change pre with (extend [Literal n; Space; Literal (Static $"="); Space] o). apply extend_wf; auto. }
  assert (EP : ritems pre = hrun [h_text n; HReq TSpace; h_text (Static $"="); HReq TSpace] (ritems o)) by reflexivity.
  destruct (first_item ops cfg doc (items b) OK EI V) as (x & r0 & EX & NX).
  pose proof (append_bare b pre x r0 Wp Wb Cb EX NX) as A.
  change (var_step (n, (v, l)) o) with (append (VTokens b) pre |> st $";" |> push).
  split.
  - unfold append at 1. cbn [format_into]. unfold append_tokens.
    set (q := extend (items b) pre). change (q |> st $";" |> push) with (extend [Literal (Static $";"); Push] q).
    apply extend_wf, extend_wf. exact Wp.
  - change (ritems (append (VTokens b) pre |> st $";" |> push)) with
      (hrun [h_text (Static $";"); HReq TPush] (ritems (append (VTokens b) pre))).
    change (var_acts n doc ++ [HReq TPush]) with
      ([h_text n; HReq TSpace; h_text (Static $"="); HReq TSpace] ++ [HDoc doc] ++ [h_text (Static $";"); HReq TPush]).
    rewrite !hrun_app. apply hrun_bare. rewrite A.
    change (hrun [HDoc doc] ?R) with (rev (doc_items doc) ++ R). rewrite map_app. f_equal.
    + rewrite <- EI. unfold items. rewrite rev_involutive. reflexivity.
    + rewrite EP. apply hrun_bare. exact E.
Qed.
Lemma var_steps_run vars docs : Forall2 value_doc vars docs -> Forall made_var vars -> forall o r, wf o ->
  bare (ritems o) = bare r ->
  wf (for_each var_step vars o) /\
  bare (ritems (for_each var_step vars o)) =
  bare (hrun (flat_map (fun p => var_acts (fst (fst p)) (snd p) ++ [HReq TPush]) (combine vars docs)) r).
Proof.
  induction 1 as [|k doc vars docs D F IH]; intros M o r W E; [split; auto|].
  inversion M as [|? ? M1 M2]; subst. cbn [for_each fold_left combine flat_map fst snd].
  destruct (var_step_run k doc o r D M1 W E) as [W1 E1].
  rewrite hrun_app. apply IH; auto.
Qed.

Definition value_out (n : item_str) (doc : list (node nix_import)) : list sym :=
  map Ch (content n ++ $" = ") ++ layout_from ind false 1 [] (doc_atoms ops cfg doc) ++ map Ch $";".
Definition let_blocks (ks : list (item_str * item_str)) (vs : list (nix_var * list (node nix_import)))
  : list (list (@hact nix_import) * list sym) :=
  map (fun k => (inherit_acts k, map Ch (nix_inherit_line k))) ks ++
  map (fun p => (var_acts (fst (fst p)) (snd p), value_out (fst (fst p)) (snd p))) vs.
Definition let_acts ks vs : list (@hact nix_import) :=
  [h_text (Box $"let")] ++ [HReq TPush; HReq TIndent] ++
  flat_map (fun b => fst b ++ [HReq TPush]) (let_blocks ks vs) ++
  [HReq TUnindent] ++ [h_text (Box $"in")] ++ [HReq TPush; HReq TLine].

Lemma wf_steps (xs : list (item nix_import)) o : wf o -> wf (extend xs o).
Proof. intros W. apply extend_wf. exact W. Qed.

Definition inherit_step : item_str * item_str -> tokens nix_import -> tokens nix_import :=
  fun '(path, name) out =>
  out |> st $"inherit" |> space |> st $"(" |> istr path |> st $")" |> space |> istr name |> st $";" |> push.
Lemma inherit_steps_run ks : forall o, wf o -> wf (for_each inherit_step ks o) /\
  ritems (for_each inherit_step ks o) = hrun (flat_map (fun k => inherit_acts k ++ [HReq TPush]) ks) (ritems o).
Proof.
  induction ks as [|[p n] ks IH]; intros o W; [split; auto|]. cbn [for_each fold_left flat_map].
  rewrite hrun_app. apply IH.
  change (inherit_step (p, n) o) with (extend [Literal (Static $"inherit"); Space; Literal (Static $"("); Literal p;
    Literal (Static $")"); Space; Literal n; Literal (Static $";"); Push] o). apply extend_wf. exact W.
Qed.
Lemma let_run t docs o r : Forall2 value_doc (nix_vars t) docs -> Forall made_var (nix_vars t) -> wf o ->
  bare (ritems o) = bare r -> (nix_inherits t <> [] \/ nix_vars t <> []) ->
  bare (ritems (nix_imports t o)) = bare (hrun (let_acts (nix_inherits t) (combine (nix_vars t) docs)) r).
Proof.
  intros F M W E NE.
  assert (X : nix_imports t o =
      for_each var_step (nix_vars t) (for_each inherit_step (nix_inherits t) (o |> txt $"let" |> push |> indent))
      |> unindent |> txt $"in" |> push |> line).
  { unfold nix_imports. rewrite nix_collect_eq. fold (nix_inherits t). fold (nix_vars t).
    destruct (nix_inherits t), (nix_vars t); try reflexivity. destruct NE; congruence. }
  rewrite X. clear X.
  set (o1 := o |> txt $"let" |> push |> indent).
  assert (W1 : wf o1) by (change o1 with (extend [Literal (Box $"let"); Push; Indentation 1] o); apply extend_wf; auto).
  destruct (inherit_steps_run (nix_inherits t) o1 W1) as [W2 E2].
  set (o2 := for_each inherit_step (nix_inherits t) o1) in *.
  set (r2 := hrun (flat_map (fun k => inherit_acts k ++ [HReq TPush]) (nix_inherits t)) (hrun [h_text (Box $"let"); HReq TPush; HReq TIndent] r)).
  assert (E3 : bare (ritems o2) = bare r2).
  { rewrite E2. apply hrun_bare. change (ritems o1) with (hrun [h_text (Box $"let"); HReq TPush; HReq TIndent] (ritems o)).
    apply hrun_bare, E. }
  destruct (var_steps_run _ _ F M o2 r2 W2 E3) as [_ E4].
  set (o3 := for_each var_step (nix_vars t) o2) in *.
  change (ritems (o3 |> unindent |> txt $"in" |> push |> line)) with
    (hrun ([HReq TUnindent] ++ [h_text (Box $"in")] ++ [HReq TPush; HReq TLine]) (ritems o3)).
  assert (K1 : forall A (g : A -> list hact * list sym) l,
    flat_map (fun b : list (@hact nix_import) * list sym => fst b ++ [HReq TPush]) (map g l) = flat_map (fun k => fst (g k) ++ [HReq TPush]) l).
  { intros A g l. induction l; cbn [map flat_map]; [|rewrite IHl]; auto. }
  unfold let_acts, let_blocks. rewrite flat_map_app, !K1. cbn [fst].
  rewrite (app_assoc [h_text (Box $"let")]), <- (app_assoc (flat_map _ (nix_inherits t))).
  rewrite (hrun_app ([h_text (Box $"let")] ++ [HReq TPush; HReq TIndent])).
  set (fin := [HReq TUnindent] ++ _). rewrite (hrun_app (flat_map _ (nix_inherits t))), (hrun_app (flat_map _ (combine _ _))).
  apply hrun_bare. rewrite E4. reflexivity.
Qed.

Definition var_lines (p : nix_var * list (node nix_import)) : item_str * list str :=
  (fst (fst p), sym_lines (layout ind (doc_atoms ops cfg (snd p)))).
Lemma let_section ks vs : (forall k, In k ks -> named (fst k) /\ named (snd k)) ->
  (forall p, In p vs -> named (fst (fst p)) /\ value_doc (fst p) (snd p)) -> (ks <> [] \/ vs <> []) ->
  section ops cfg (let_acts ks vs) (nix_let_section P ks (map var_lines vs)).
Proof.
  intros N1 N2 NE. unfold let_acts, nix_let_section.
  set (lines := map (fun k => [indent_line P (nix_inherit_line k)]) ks ++
                map (fun p => map (indent_line P) (nix_variable_lines (var_lines p))) vs).
  assert (E : match ks, map var_lines vs with
     | [], [] => []
     | _, _ => $"let" :: map (indent_line P) (map nix_inherit_line ks ++ flat_map nix_variable_lines (map var_lines vs)) ++ [$"in"]
     end = $"let" :: concat lines ++ [$"in"]).
  { assert (E' : map (indent_line P) (map nix_inherit_line ks ++ flat_map nix_variable_lines (map var_lines vs)) = concat lines).
    { unfold lines. rewrite map_app, concat_app. f_equal.
      - clear. induction ks; cbn [map concat app]; [|rewrite IHks]; auto.
      - clear. induction vs; cbn [map flat_map concat]; [|rewrite map_app, IHvs]; auto. }
    rewrite E'. destruct ks, vs; try reflexivity. destruct NE; congruence. }
  rewrite E. apply section_block.
  - apply (writes_text ops cfg (Box $"let")). discriminate.
  - apply (writes_text ops cfg (Box $"in")). discriminate.
  - apply Forall_app. split; apply Forall_forall; intros b H.
    + apply in_map_iff in H as [k [<- H]]. apply N1 in H as [H1 H2].
      apply text_block; [discriminate|]. apply inherit_ok; auto.
    + apply in_map_iff in H as [[k doc] [<- H]]. apply N2 in H as [H1 (EI & OK & V & LB)]. cbn [fst snd] in *.
      apply var_block; auto. eapply good_value; eauto.
  - unfold let_blocks. destruct ks, vs; try discriminate; destruct NE; congruence.
  - unfold let_blocks, lines. apply Forall2_app.
    + assert (G : forall k, In k ks -> pad ind 1 ++ map Ch (nix_inherit_line k) = join_lines [indent_line P (nix_inherit_line k)] /\
        [indent_line P (nix_inherit_line k)] <> []).
      { intros k H. split; [|discriminate]. cbn [join_lines]. rewrite pad_text, <- map_app, indent_line_some; auto. discriminate. }
      clear - G. induction ks as [|k ks IH]; cbn; constructor; auto.
      * apply G. left. reflexivity.
      * apply IH. intros k' H. apply G. right. exact H.
    + assert (G : forall p, In p vs -> pad ind 1 ++ value_out (fst (fst p)) (snd p) =
         join_lines (map (indent_line P) (nix_variable_lines (var_lines p))) /\
         map (indent_line P) (nix_variable_lines (var_lines p)) <> []).
      { intros [k doc] H. apply N2 in H as [H1 (EI & OK & V & LB)]. cbn [fst snd] in *.
        destruct (var_block cfg scoped (fst k) doc H1 (good_value cfg scoped (var_stream k) doc EI OK V) LB) as (_ & X & Y).
        split; [exact X|exact Y]. }
      clear - G. induction vs as [|k vs IH]; cbn; constructor; auto.
      * apply G. left. reflexivity.
      * apply IH. intros k' H. apply G. right. exact H.
Qed.

(** ** The file *)
Lemma nix_placed t docs body body' : 
  Forall (fun a => a <> []) (nix_args t) -> Forall named (nix_ws t) ->
  Forall (fun k => named (fst k) /\ named (snd k)) (nix_inherits t) ->
  Forall (fun k => named (fst k)) (nix_vars t) ->
  Forall2 value_doc (nix_vars t) docs -> Forall made_var (nix_vars t) ->
  renders nix_lang cfg scoped tt t body -> carried nix_format_item (c_indentation cfg) t body body' ->
  file_renders nix_lang cfg scoped t
    (placed_file (c_newline cfg)
       (sections [if scoped then [] else nix_arguments_section P (nix_args t);
                  nix_withs_section (nix_ws t);
                  nix_let_section P (nix_inherits t) (map var_lines (combine (nix_vars t) docs))]) body body').
Proof.
  intros NA NW NI NV D M R CS.
  set (o0 := if scoped then new else nix_arguments t new).
  assert (S0 : exists hs, ritems o0 = hrun hs [] /\ wf o0 /\
     header_state ops cfg hs (if scoped then [] else nix_arguments_section P (nix_args t))).
  { unfold o0. destruct scoped eqn:ES.
    - exists []. split; [reflexivity|]. split; [apply new_wf|apply header_none].
    - exists (args_acts (nix_args t)). split; [apply args_run|]. split.
      + unfold nix_arguments. rewrite nix_args_eq. 
        set (q := for_each _ (nix_args t) _).
        change (q |> txt $"..." |> push |> unindent |> txt $"}:" |> push |> line) with
          (extend [Literal (Box $"..."); Push; Indentation (-1); Literal (Box $"}:"); Push; Line] q).
        apply extend_wf. unfold q.
        assert (G : forall l o, wf o -> wf (for_each (fun a out => out |> txt a |> st $"," |> push) l (o : tokens nix_import))).
        { induction l as [|a l IH]; intros o W; auto. cbn [for_each fold_left]. apply IH.
          change (o |> txt a |> st $"," |> push) with (extend [Literal (Box a); Literal (Static $","); Push] o). apply extend_wf; auto. }
        apply G. change (new |> txt $"{" |> push |> indent) with (extend [Literal (Box $"{"); Push; Indentation 1] (@new nix_import)).
        apply extend_wf, new_wf.
      + pose proof (header_section ops cfg [] [] _ _ (header_none ops cfg) (args_section cfg scoped _ NA)) as H.
        rewrite ES in H. exact H. }
  destruct S0 as (hs0 & E0 & W0 & H0). set (ls0 := if scoped then [] else _) in *.
  set (o1 := nix_withs t o0).
  assert (S1 : exists hs, ritems o1 = hrun hs [] /\ wf o1 /\
     header_state ops cfg hs (sections [ls0; nix_withs_section (nix_ws t)])).
  { exists (hs0 ++ withs_acts (nix_ws t)). unfold o1. split; [rewrite withs_run, E0, hrun_app; reflexivity|]. split.
    - unfold nix_withs. rewrite nix_ws_eq. 
      assert (G : forall l o, wf o -> wf (for_each (fun name out => out |> st $"with" |> space |> istr name |> st $";" |> push) l (o : tokens nix_import))).
      { induction l as [|a l IH]; intros o W; auto. cbn [for_each fold_left]. apply IH.
        change (o |> st $"with" |> space |> istr a |> st $";" |> push) with
          (extend [Literal (Static $"with"); Space; Literal a; Literal (Static $";"); Push] o). apply extend_wf; auto. }
      destruct (nix_ws t) as [|w ws]; auto. 
      set (q := for_each _ _ o0). change (line q) with (extend [Line] q). apply extend_wf, G. exact W0.
    - destruct (nix_ws t) as [|w ws].
      + unfold withs_acts, after_style. cbn [map]. rewrite app_nil_r. cbn. destruct ls0; exact H0.
      + pose proof (header_section ops cfg _ _ _ _ H0 (withs_section cfg scoped w ws NW)) as H.
        cbn [sections]. destruct ls0; exact H. }
  destruct S1 as (hs1 & E1 & W1 & H1).
  assert (EF : ld_format_file nix_lang t scoped = [(nix_imports t o1, tt); (t, tt)]) by reflexivity.
  assert (ES : forall a b c, sections [a; b; c] = match sections [a; b] with [] => c | x => match c with [] => x | _ => x ++ [] :: c end end).
  { intros a b c. destruct a, b, c; cbn; rewrite ?app_nil_r; try reflexivity.
    rewrite <- !app_assoc. reflexivity. }
  rewrite ES.
  destruct (nix_inherits t) as [|k ks] eqn:EI; [destruct (nix_vars t) as [|v vs] eqn:EV|].
  - inversion D; subst. cbn [combine map nix_let_section].
    apply (file_of_sections nix_lang cfg scoped tt t (nix_imports t o1) hs1); auto.
    + intros e. cbn. discriminate.
    + unfold nix_imports. rewrite nix_collect_eq. fold (nix_inherits t). fold (nix_vars t). rewrite EI, EV. rewrite E1. reflexivity.
    + destruct (sections [ls0; nix_withs_section (nix_ws t)]); exact H1.
  - rewrite <- EV, <- EI in *.
    eapply (file_of_sections nix_lang cfg scoped tt t (nix_imports t o1) (hs1 ++ let_acts (nix_inherits t) (combine (nix_vars t) docs))); eauto.
    + intros e. cbn. discriminate.
    + rewrite hrun_app. eapply let_run; eauto; [rewrite E1; reflexivity|]. right. rewrite EV. discriminate.
    + assert (S2 : section ops cfg (let_acts (nix_inherits t) (combine (nix_vars t) docs))
         (nix_let_section P (nix_inherits t) (map var_lines (combine (nix_vars t) docs)))).
      { apply let_section.
        - rewrite Forall_forall in NI. exact NI.
        - intros [v' doc'] H. cbn [fst snd]. split; [apply in_combine_l in H; rewrite Forall_forall in NV; apply NV; auto|].
          clear - D H. induction D as [|a b la lb X F IH]; [destruct H|]. destruct H as [[= <- <-]|H]; auto.
        - right. destruct docs; [rewrite EV in D; inversion D|]. rewrite EV. discriminate. }
      destruct S2 as (A & B & C). 
      pose proof (header_section ops cfg _ _ _ _ H1 (conj A (conj B C))) as H.
      destruct (sections [ls0; nix_withs_section (nix_ws t)]); [exact H|].
      destruct (nix_let_section P (nix_inherits t) (map var_lines (combine (nix_vars t) docs))); [congruence|exact H].
  - rewrite <- EI in *.
    eapply (file_of_sections nix_lang cfg scoped tt t (nix_imports t o1) (hs1 ++ let_acts (nix_inherits t) (combine (nix_vars t) docs))); eauto.
    + intros e. cbn. discriminate.
    + rewrite hrun_app. eapply let_run; eauto; [rewrite E1; reflexivity|]. left. rewrite EI. discriminate.
    + assert (S2 : section ops cfg (let_acts (nix_inherits t) (combine (nix_vars t) docs))
         (nix_let_section P (nix_inherits t) (map var_lines (combine (nix_vars t) docs)))).
      { apply let_section.
        - rewrite Forall_forall in NI. exact NI.
        - intros [v' doc'] H. cbn [fst snd]. split; [apply in_combine_l in H; rewrite Forall_forall in NV; apply NV; auto|].
          clear - D H. induction D as [|a b la lb X F IH]; [destruct H|]. destruct H as [[= <- <-]|H]; auto.
        - left. rewrite EI. discriminate. }
      destruct S2 as (A & B & C). 
      pose proof (header_section ops cfg _ _ _ _ H1 (conj A (conj B C))) as H.
      destruct (sections [ls0; nix_withs_section (nix_ws t)]); [exact H|].
      destruct (nix_let_section P (nix_inherits t) (map var_lines (combine (nix_vars t) docs))); [congruence|exact H].
Qed.
Lemma nix_file t docs body : 
  Forall (fun a => a <> []) (nix_args t) -> Forall named (nix_ws t) ->
  Forall (fun k => named (fst k) /\ named (snd k)) (nix_inherits t) ->
  Forall (fun k => named (fst k)) (nix_vars t) ->
  Forall2 value_doc (nix_vars t) docs -> Forall made_var (nix_vars t) ->
  renders nix_lang cfg scoped tt t body -> (body <> [] -> clean_start nix_format_item t) ->
  file_renders nix_lang cfg scoped t
    (file_text (c_newline cfg)
       (sections [if scoped then [] else nix_arguments_section P (nix_args t);
                  nix_withs_section (nix_ws t);
                  nix_let_section P (nix_inherits t) (map var_lines (combine (nix_vars t) docs))]) body).
Proof.
  intros NA NW NI NV D M R CS. rewrite <- placed_same. apply nix_placed; auto.
  apply (carried_clean nix_lang cfg scoped tt t body); auto. open_quote.
Qed.
End Nix.
