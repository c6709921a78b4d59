(** * Lemmas: indented blocks; the C# namespace block. *)
From Verif Require Import Str StrFacts Tokens SpecTokens TokensRun Values Fmt SpecFmt FmtFacts RenderFacts
  LayoutFacts HistoryFacts OutputFacts Order OrderFacts SpecFile SpecLang LangBase HeaderFacts FileFacts TokensFacts
  AlgebraFacts ValuesFacts WriterFacts ImportFacts PickFacts JavaFacts CsharpFacts LangCsharp.

(** ** Layout one level deeper *)

Lemma indent_text_add ind a b : (0 <= a)%Z -> (0 <= b)%Z ->
  indent_text ind (a + b) = indent_text ind a ++ indent_text ind b.
Proof.
  intros Ha Hb. unfold indent_text. rewrite !Z.max_l by lia. rewrite Z2Nat.inj_add by auto.
  destruct ind as [w|]; rewrite ?Nat.mul_add_distr_r, repeat_app; auto.
Qed.

Definition shift_rest (p : str) (ls : list str) : list str :=
  match ls with [] => [] | l :: ls' => l :: map (indent_line p) ls' end.

Lemma indent_line_some p l : l <> [] -> indent_line p l = p ++ l.
Proof. destruct l; [congruence|reflexivity]. Qed.

Definition levels_ok (lvl : Z) (l : list atom) : Prop :=
  forall p q, l = p ++ q -> (0 <= lvl + net p)%Z.

Lemma lines_shift ind l : forall s lvl gap, levels_ok lvl (gap ++ l) ->
  lines_after ind s (1 + lvl)%Z gap l =
  shift_rest (indent_text ind 1) (lines_after ind s lvl gap l).
Proof.
  induction l as [|a l IH]; intros s lvl gap OK.
  - rewrite !lines_after_nil. reflexivity.
  - destruct (list_eq_dec N.eq_dec (a_text a) []) as [E|E].
    + rewrite !lines_after_skip by auto. apply IH. rewrite <- app_assoc. exact OK.
    + assert (G : (0 <= lvl + net gap)%Z) by (apply (OK gap (a :: l)); auto).
      assert (A0 : a_indent a = 0%Z) by (destruct a; cbn in *; congruence).
      assert (OK' : levels_ok (lvl + net gap) ([] ++ l)).
      { intros p q EQ. cbn in EQ. specialize (OK (gap ++ a :: p) q).
        rewrite <- app_assoc in OK. cbn [app] in OK. rewrite <- EQ in OK. specialize (OK eq_refl).
        rewrite HeaderFacts.net_app in OK. cbn [net] in OK. lia. }
      assert (N1 : forall s0 lv, s0 <> [] -> 
        forall ls, lines_after ind s0 lv [] l = ls -> exists y ys, ls = y :: ys /\ y <> []).
      { intros s0 lv H0 ls <-. pose proof (lines_after_nonempty ind s0 lv [] l).
        clear - H0. unfold lines_after, glue. destruct (sym_lines (layout_from ind false lv [] l)) as [|y ys].
        - eauto.
        - exists (s0 ++ y), ys. split; auto. destruct s0; [congruence|discriminate]. }
      rewrite !lines_after_text by auto. cbv zeta.
      replace (1 + lvl + net gap)%Z with (1 + (lvl + net gap))%Z by lia.
      assert (K : forall b, b <> [] ->
        lines_after ind (indent_text ind (1 + (lvl + net gap)) ++ b) (1 + (lvl + net gap)) [] l =
        map (indent_line (indent_text ind 1)) (lines_after ind (indent_text ind (lvl + net gap) ++ b) (lvl + net gap) [] l)).
      { intros b Hb. rewrite IH by auto. rewrite indent_text_add by lia.
        unfold lines_after. unfold glue. destruct (sym_lines (layout_from ind false (lvl + net gap) [] l)) as [|y ys].
        - cbn [shift_rest map]. rewrite indent_line_some; [rewrite <- app_assoc; auto|].
          destruct b; [congruence|]. destruct (indent_text ind (lvl + net gap)); discriminate.
        - cbn [shift_rest map]. rewrite indent_line_some; [rewrite <- !app_assoc; auto|].
          destruct b; [congruence|]. destruct (indent_text ind (lvl + net gap)); discriminate. }
      assert (NB : forall n, repeat 32%N n ++ a_text a <> []).
      { intros n. destruct (a_text a); [congruence|]. destruct n; discriminate. }
      destruct (existsb a_line gap); [|destruct (existsb a_break gap)].
      * cbn [shift_rest map indent_line]. rewrite K by auto. reflexivity.
      * cbn [shift_rest map]. rewrite K by auto. reflexivity.
      * apply IH; auto.
Qed.

(** The text of lines. *)
Lemma text_lines_stack nl o : text nl o = stack nl (sym_lines o).
Proof.
  induction o as [|x o IH]; [reflexivity|]. cbn [text flat_map]. fold (text nl o). rewrite IH.
  destruct x as [c|]; cbn [sym_lines sym_text app].
  - destruct (sym_lines o) as [|l ls] eqn:E; [exfalso; clear - E; destruct o as [|[?|] o]; cbn in E; try discriminate; destruct (sym_lines o); discriminate|].
    destruct ls; reflexivity.
  - destruct (sym_lines o) as [|l ls] eqn:E; [exfalso; clear - E; destruct o as [|[?|] o]; cbn in E; try discriminate; destruct (sym_lines o); discriminate|].
    reflexivity.
Qed.

(** ** Links *)
Section Links.
Context {LI : Type} (ops : lang_ops LI) (cfg : config).

(** Appending a stream that starts with something else than whitespace. *)
Lemma append_bare (b t : tokens LI) x r : wf t -> wf b -> rcanon (ritems b) ->
  items b = x :: r -> is_white x = false ->
  map erase (ritems (append (VTokens b) t)) = map erase (ritems b) ++ map erase (ritems t).
Proof.
  intros Wt Wb Cb EB NW. unfold append. cbn [format_into]. unfold append_tokens.
  assert (K : forall t0 : tokens LI, wf t0 -> ritems (extend (items b) t0) =
     graft (ritems (from_iter r)) (ritems (add_item x t0))).
  { intros t0 W0. rewrite EB. cbn [extend fold_left]. change (fold_left _ r ?a) with (extend r a).
    rewrite extend_closed; [reflexivity|apply add_item_wf; auto|].
    unfold closed, items. intros pre y E. destruct x; try discriminate NW; cbn in E;
      apply app_inj_tail in E as [_ <-]; reflexivity. }
  rewrite (K t Wt). rewrite <- (rebuild_tokens b Wb Cb) at 1. unfold from_iter. rewrite (K new (@new_wf LI)).
  rewrite !graft_erase, <- app_assoc. f_equal.
  destruct x; try discriminate NW; reflexivity.
Qed.

(** First and last items. *)
Lemma first_item (ns : list (node LI)) its : doc_ok ns = true -> its = doc_items ns ->
  visible_ends (doc_atoms ops cfg ns) -> exists x r, its = x :: r /\ is_white x = false.
Proof.
  intros OK -> [[a [l [E V]]] _]. unfold doc_items, doc_atoms, doc_ok in *.
  induction ns as [|n ns IH]; [discriminate|]. cbn in *. apply andb_true_iff in OK as [O1 O2].
  destruct n as [y|e ps].
  - exists y, (flat_map node_items ns). split; auto.
    destruct y; auto; cbn in E; injection E as <- _; discriminate.
  - eexists _, _. split; [reflexivity|reflexivity].
Qed.
Lemma last_item (ns : list (node LI)) its : doc_ok ns = true -> its = doc_items ns ->
  visible_ends (doc_atoms ops cfg ns) -> exists r x, its = r ++ [x] /\ is_white x = false.
Proof.
  intros OK -> [_ [l [a [E V]]]]. unfold doc_items, doc_atoms, doc_ok in *.
  destruct ns as [|n0 ns0] using rev_ind; [destruct l; discriminate|]. clear IHns0.
  rewrite flat_map_app in *. cbn in *. rewrite app_nil_r in *.
  rewrite forallb_app in OK. apply andb_true_iff in OK as [O1 O2].
  destruct n0 as [y|e ps].
  - exists (flat_map node_items ns0), y. split; auto.
    destruct y; auto; cbn in E; apply app_inj_tail in E as [_ <-]; discriminate.
  - eexists (flat_map node_items ns0 ++ OpenQuote e :: flat_map part_items ps), CloseQuote.
    split; [cbn; rewrite <- app_assoc; reflexivity|reflexivity].
Qed.

(** Rendering of a stream that is, up to links, built by acts. *)
Lemma acts_render (hs : list (@hact LI)) (t : tokens LI) out e :
  Forall (good_hact ops cfg) hs -> map erase (ritems t) = map erase (hrun hs []) ->
  hist ops cfg true 0%Z nothing hs = (out, e) ->
  exists l, layout (c_indentation cfg) l = out /\
    forall W (wr : writer W) st, format_items ops cfg wr (items t) st = run_atoms wr cfg l st.
Proof.
  intros G ET EH.
  destruct (hist_run ops cfg hs G true 0%Z false [] false 0%Z [] I I)
    as (ns & s' & lines' & p' & i' & base' & out' & first' & lvl' & E1 & E2 & E3 & E4 & E5 & E6 & E7).
  change (state_of false [] false 0) with nothing in E6. rewrite EH in E6.
  injection E6 as <- E6.
  destruct (shape_nodes ops cfg s' lines' p' i') as [S1 [S2 S3]].
  exists (doc_atoms ops cfg (ns ++ map NItem (rev (shape s' lines' p' i')))). split.
  - unfold layout, doc_atoms in *. rewrite flat_map_app, S3, E7.
    rewrite <- (app_nil_r (shape_atoms ops s' lines' p' i')).
    rewrite layout_from_invisible by apply shape_invisible. cbn. apply app_nil_r.
  - intros W wr st. rewrite <- format_erase.
    assert (EI : map erase (items t) = map erase (doc_items (ns ++ map NItem (rev (shape s' lines' p' i'))))).
    { unfold items. rewrite map_rev, ET, <- map_rev. f_equal.
      change (hrun hs [] = shape s' lines' p' i' ++ base') in E1.
      rewrite E1, rev_app_distr, E4. cbn [rev app]. unfold doc_items in *. rewrite flat_map_app, S1. reflexivity. }
    rewrite EI, format_erase. apply format_doc. unfold doc_ok in *. rewrite forallb_app, E5, S2. auto.
Qed.
End Links.

(** ** The namespace block *)

Section Block.
Context (cfg : config) (ns : item_str).
Notation namespace := (Some ns).
Notation ops f := (ld_ops csharp_lang namespace f).

Definition open_acts : list (@hact cs_import) :=
  [h_text (Static $"namespace"); HReq TSpace; h_text ns; HReq TSpace; h_text (Static $"{")].
Lemma open_acts_ok f : named ns -> writes (ops f) cfg open_acts ($"namespace " ++ content ns ++ $" {").
Proof. intros N. unfold open_acts. line_ok. Qed.

Lemma cs_block_acts (t file : tokens cs_import) doc f hs :
  wf file -> wf t -> rcanon (ritems t) ->
  items t = doc_items doc -> doc_ok doc = true -> visible_ends (doc_atoms (ops f) cfg doc) ->
  ritems file = hrun hs [] ->
  map erase (ritems (cs_namespace_block ns t file)) =
  map erase (hrun (hs ++ open_acts ++ [HReq TIndent; HDoc doc; HReq TUnindent; h_text (Static $"}")]) []).
Proof.
  intros Wf Wt Ct EI OK V EF. unfold cs_namespace_block.
  set (pre := file |> st $"namespace" |> space |> istr ns |> space |> st $"{" |> indent).
  assert (EP : ritems pre = hrun (hs ++ open_acts ++ [HReq TIndent]) []).
  { rewrite !hrun_app, <- EF. destruct file as [r n]. reflexivity. }
  destruct (first_item (ops f) cfg doc (items t) OK EI V) as (x & r & EX & NX).
  destruct (last_item (ops f) cfg doc (items t) OK EI V) as (r2 & y & EY & NY).
  assert (Wp : wf pre).
  { change pre with (extend [Literal (Static $"namespace"); Space; Literal ns; Space; Literal (Static $"{"); Indentation 1] file).
    apply extend_wf; auto. }
  pose proof (append_bare t pre x r Wp Wt Ct EX NX) as A.
  change (ritems (append (VTokens t) pre |> unindent |> st $"}")) with
    (Literal (Static $"}") :: indentation_loop (-1) (ritems (append (VTokens t) pre))).
  assert (EH : hrun (hs ++ open_acts ++ [HReq TIndent; HDoc doc; HReq TUnindent; h_text (Static $"}")]) [] =
    hrun [HDoc doc; HReq TUnindent; h_text (Static $"}")] (ritems pre)).
  { rewrite EP, <- hrun_app, <- !app_assoc. reflexivity. }
  rewrite EH. clear EH.
  assert (EH : forall R, hrun [HDoc doc; HReq TUnindent; h_text (Static $"}")] R =
    Literal (Static $"}") :: indentation_loop (-1) (rev (doc_items doc) ++ R)) by reflexivity.
  rewrite EH. clear EH.
  assert (L : forall (z : item cs_import) R, is_white z = false -> indentation_loop (-1) (z :: R) = Indentation (-1) :: z :: R).
  { intros z R H. destruct z; try discriminate H; reflexivity. }
  rewrite <- EI, EY. rewrite rev_app_distr. cbn [rev app]. rewrite L by auto.
  assert (EA : exists z R, ritems (append (VTokens t) pre) = z :: R /\ is_white z = false).
  { unfold items in EY. assert (ER : ritems t = y :: rev r2).
    { rewrite <- (rev_involutive (ritems t)), EY, rev_app_distr. reflexivity. }
    rewrite ER in A. destruct (ritems (append (VTokens t) pre)) as [|z R]; [discriminate|].
    exists z, R. split; auto. cbn in A. injection A as A _. destruct y, z; cbn in *; try discriminate; auto. }
  destruct EA as (z & R & EZ & NZ). rewrite EZ in *. rewrite L by auto.
  cbn [map]. cbn [map] in A. rewrite A. do 2 f_equal.
  unfold items in EY. assert (ER : ritems t = y :: rev r2).
  { rewrite <- (rev_involutive (ritems t)), EY, rev_app_distr. reflexivity. }
  rewrite ER. cbn. rewrite map_app. reflexivity.
Qed.

Lemma stack_app nl a b : a <> [] -> b <> [] -> stack nl (a ++ b) = stack nl a ++ nl ++ stack nl b.
Proof.
  intros Ha Hb. induction a as [|x a IH]; [congruence|]. destruct a as [|y a].
  - cbn. destruct b; [congruence|reflexivity].
  - cbn [app stack]. cbn [app stack] in IH. rewrite IH by discriminate. rewrite <- !app_assoc. reflexivity.
Qed.
Lemma sym_lines_nonempty o : sym_lines o <> [].
Proof. destruct o as [|[?|] o]; cbn; try discriminate. destruct (sym_lines o); discriminate. Qed.

Lemma block_lines ind nl l : visible_ends l -> level_body l ->
  text nl (pad ind 1 ++ layout_from ind false 1 [] l) =
  stack nl (map (indent_line (indent_text ind 1)) (sym_lines (layout ind l))).
Proof.
  intros [[a [l' [-> V]]] _] [_ LV].
  assert (E0 : layout ind (a :: l') = layout_from ind false 0 [] (a :: l')).
  { unfold layout. rewrite (layout_from_first (mk_config ind [])) by auto. cbn.
    destruct ind; reflexivity. }
  rewrite E0, text_lines_stack. f_equal.
  rewrite pad_text, sym_lines_chars. 
  assert (S : sym_lines (layout_from ind false 1 [] (a :: l')) =
              shift_rest (indent_text ind 1) (sym_lines (layout_from ind false 0 [] (a :: l')))).
  { pose proof (lines_shift ind (a :: l') [] 0%Z []) as H. cbn [Z.add] in H. 
    assert (G : forall o, glue [] (sym_lines o) = sym_lines o).
    { intros o. pose proof (sym_lines_nonempty o). destruct (sym_lines o); [congruence|reflexivity]. }
    unfold lines_after in H. rewrite !G in H. apply H. intros p q E. apply LV in E. lia. }
  rewrite S.
  assert (F : exists x xs, sym_lines (layout_from ind false 0 [] (a :: l')) = x :: xs /\ x <> []).
  { unfold visible in V. cbn [layout_from]. destruct (a_text a) as [|c s] eqn:T; [discriminate|].
    cbn [separator existsb count_spaces filter length blanks repeat app map].
    change (Ch c :: map Ch s ++ ?r) with (map Ch (c :: s) ++ r). rewrite sym_lines_chars.
    unfold glue. match goal with |- context [match ?z with _ => _ end] => destruct z end; eexists _, _; (split; [reflexivity|discriminate]). }
  destruct F as (x & xs & -> & NX). cbn. rewrite indent_line_some by auto. reflexivity.
Qed.

Lemma cs_step_wf ks : forall acc, wf (fst (fst acc)) ->
  wf (fst (fst (fold_left (cs_step (opt_text namespace)) ks acc))).
Proof.
  induction ks as [|[m n] ks IH]; intros [[o a] b] W; cbn [fold_left]; [exact W|]. apply IH.
  unfold cs_step. destruct (opt_str_eqb _ _); [exact W|]. destruct (map_get str_cmp n a); [exact W|].
  destruct (negb (set_mem str_cmp m b)); cbn [fst]; [|exact W]. cbn [fst] in W.
  change (wf (extend [Literal (Static $"using"); Space; Literal (Box m); Literal (Static $";"); Push] o)).
  apply extend_wf; auto.
Qed.
Lemma cs_imports_wf t : wf (fst (cs_imports t namespace new [])).
Proof.
  rewrite cs_imports_eq. destruct (cs_keys t) as [|k ks]; [apply new_wf|]. cbv zeta. cbn [fst].
  match goal with |- wf (line ?o) => change (wf (extend [Line] o)) end. apply extend_wf.
  apply cs_step_wf. apply new_wf.
Qed.

Lemma cs_block_text cs doc : let t := build cs in let f := cs_format namespace t in
  let l := doc_atoms (ops f) cfg doc in
  named ns -> Forall (fun i => named (cs_namespace i)) (uses t) ->
  items t = doc_items doc -> doc_ok doc = true -> visible_ends l -> net l = 0%Z ->
  file_renders csharp_lang cfg namespace t
    (file_text (c_newline cfg) (map cs_line (cs_usings namespace t))
      (($"namespace " ++ content ns ++ $" {") ++ c_newline cfg ++ indent_text (c_indentation cfg) 1 ++
       text (c_newline cfg) (layout_from (c_indentation cfg) false 1 [] l) ++ c_newline cfg ++ $"}")).
Proof.
  intros t f l NN N EI OK V LV. set (nl := c_newline cfg). set (ind := c_indentation cfg).
  pose proof (cs_usings_named cfg namespace cs f N) as W. fold t in W.
  destruct (cs_imports_acts namespace t) as (hs & HS & E1 & E2).
  set (file := fst (cs_imports t namespace new [])) in *.
  set (hu := match cs_usings namespace t with [] => hs | ks => after_style (map (fun k => (cs_acts k, cs_line k)) ks) end) in *.
  set (tail := [HReq TIndent; HDoc doc; HReq TUnindent; h_text (Static $"}")]).
  assert (GD : good_doc (ops f) cfg doc).
  { split; [auto|]. split; [|exact V]. rewrite <- EI. destruct (last_item (ops f) cfg doc (items t) OK EI V) as (r2 & y & EY & NY).
    exists r2, y. auto. }
  destruct (open_acts_ok f NN) as [GO HO].
  assert (HU : Forall (good_hact (ops f) cfg) hu /\ exists q,
    hist (ops f) cfg true 0%Z nothing hu =
      (join_lines (map cs_line (cs_usings namespace t)),
       (match cs_usings namespace t with [] => true | _ => false end, 0%Z, q)) /\
    (q = nothing /\ cs_usings namespace t = [] \/ q = mk_pending 2 false 0 0)).
  { subst hu. destruct (cs_usings namespace t) as [|k ks] eqn:EC.
    - destruct HS as [-> | ->]; (split; [repeat constructor; discriminate|]); eexists; (split; [reflexivity|auto]).
    - rewrite <- EC in *. pose proof (keyed_writes (ops f) cfg cs_acts cs_line _ W) as KW.
      destruct (after_style_hist (ops f) cfg _ KW) as [G H]. rewrite EC in G, H.
      split; [rewrite EC in *; exact G|]. rewrite EC. 
      exists (mk_pending 2 false 0 0). split; [|auto].
      rewrite keyed_lines in H. exact H. }
  destruct HU as (GU & q & HU & HQ).
  assert (GT : Forall (good_hact (ops f) cfg) tail).
  { constructor; [intros ?; discriminate|]. constructor; [exact GD|]. constructor; [intros ?; discriminate|].
    apply (writes_text (ops f) cfg (Static $"}")). discriminate. }
  destruct (acts_render (ops f) cfg (hu ++ open_acts ++ tail) (cs_namespace_block ns t file)
    (join_lines (map cs_line (cs_usings namespace t)) ++
     (gap_text ind (match cs_usings namespace t with [] => true | _ => false end) 0 q ++ map Ch ($"namespace " ++ content ns ++ $" {")) ++
     (NL :: pad ind 1 ++ layout_from ind false 1 [] l ++ NL :: pad ind 0 ++ map Ch $"}"))
    (false, 0%Z, nothing)) as (la & EL & FR).
  - apply Forall_app; split; [auto|]. apply Forall_app; auto.
  - apply (cs_block_acts t file doc f hu); auto; [apply cs_imports_wf|apply build_wf|apply build_canon].
  - rewrite hist_app, HU. rewrite hist_app, HO.
    assert (Q0 : p_indent q = 0%Z) by (destruct HQ as [[-> _]| ->]; reflexivity). rewrite Q0. cbn [Z.add].
    unfold tail. cbn [hist request change_indent nothing p_indent Z.add Z.eqb].
    fold l. rewrite LV.
    assert (G1 : forall lv k, gap_text (c_indentation cfg) false lv (mk_pending 1 false 0 k) = NL :: pad ind lv).
    { intros lv k. unfold gap_text. cbn. rewrite app_nil_r. reflexivity. }
    cbn [h_text]. rewrite !G1. reflexivity.
  - assert (OUT : file_renders csharp_lang cfg namespace t (text nl (layout ind la) ++ nl)).
    { unfold file_renders, format_file. cbn [ld_format_file csharp_lang]. unfold cs_format_file. rewrite E1.
      cbn [format_streams]. fold f.
      assert (FS : forall st, and_then (format csharp_lang string_writer cfg (cs_namespace_block ns t file) namespace f st)
        (fun st => (st, true)) = run_atoms string_writer cfg la st).
      { intros st. unfold format. rewrite FR. destruct (run_atoms string_writer cfg la st) as [s1 [|]]; reflexivity. }
      rewrite FS. destruct (run_string_new cfg la []) as [st' [R1 R2]].
      unfold str in *. rewrite R1. cbn. unfold outcome, write_trailing_line, on_write. cbn. rewrite R2. reflexivity. }
    replace (file_text nl (map cs_line (cs_usings namespace t)) _) with (text nl (layout ind la) ++ nl); [exact OUT|].
    unfold file_text.
    set (block := text nl (layout_from ind false 1 [] l)) in *.
    assert (TL : text nl (layout ind la) =
       stack nl (map cs_line (cs_usings namespace t)) ++
       match cs_usings namespace t with [] => [] | _ => nl ++ nl end ++
       ($"namespace " ++ content ns ++ $" {") ++ nl ++ indent_text ind 1 ++ block ++ nl ++ $"}").
    { fold ind in EL. rewrite EL. unfold block.
      rewrite !text_app, FileFacts.text_join, !text_chars.
      assert (GT' : text nl (gap_text ind (match cs_usings namespace t with [] => true | _ => false end) 0 q) =
        match cs_usings namespace t with [] => [] | _ => nl ++ nl end).
      { unfold gap_text, pad. destruct HQ as [[-> ->]| ->].
        - destruct ind; reflexivity.
        - destruct (cs_usings namespace t); destruct ind; cbn; rewrite ?app_nil_r; reflexivity. }
      rewrite GT'.
      assert (P0 : pad ind 0 = []) by (destruct ind; reflexivity). rewrite P0.
      assert (TN : forall o, text nl (NL :: o) = nl ++ text nl o) by reflexivity.
      rewrite TN, !text_app, TN, pad_text, text_chars. cbn [app]. rewrite text_chars. rewrite <- !app_assoc. reflexivity. }
    rewrite TL.
    change ($"namespace ") with (110%N :: $"amespace "). cbn [app].
    destruct (cs_usings namespace t) as [|k ks]; cbn [map].
    + reflexivity.
    + rewrite <- !app_assoc. reflexivity.
Qed.
Lemma cs_block_file cs doc : let t := build cs in let f := cs_format namespace t in
  let l := doc_atoms (ops f) cfg doc in
  named ns -> Forall (fun i => named (cs_namespace i)) (uses t) ->
  items t = doc_items doc -> doc_ok doc = true -> visible_ends l -> level_body l ->
  file_renders csharp_lang cfg namespace t
    (file_text (c_newline cfg) (map cs_line (cs_usings namespace t))
      (stack (c_newline cfg) (($"namespace " ++ content ns ++ $" {") ::
         map (indent_line (indent_text (c_indentation cfg) 1)) (sym_lines (layout (c_indentation cfg) l)) ++
         [$"}"]))).
Proof.
  intros t f l NN N EI OK V LV. pose proof (cs_block_text cs doc NN N EI OK V (proj1 LV)) as H. fold t f l in H.
  set (nl := c_newline cfg) in *. set (ind := c_indentation cfg) in *.
  assert (NM : map (indent_line (indent_text ind 1)) (sym_lines (layout ind l)) <> []).
  { pose proof (sym_lines_nonempty (layout ind l)). destruct (sym_lines (layout ind l)); [congruence|discriminate]. }
  set (block := map (indent_line (indent_text ind 1)) (sym_lines (layout ind l))) in *.
  assert (SB : stack nl (($"namespace " ++ content ns ++ $" {") :: block ++ [$"}"]) =
     ($"namespace " ++ content ns ++ $" {") ++ nl ++ stack nl block ++ nl ++ $"}").
  { assert (X : forall h, stack nl (h :: block ++ [$"}"]) = h ++ nl ++ stack nl (block ++ [$"}"])).
    { intros h. destruct block; reflexivity. }
    rewrite X, stack_app by (auto; discriminate). reflexivity. }
  rewrite SB. unfold block. rewrite <- block_lines by auto. rewrite text_app, pad_text, text_chars, <- !app_assoc.
  rewrite <- !app_assoc in H. exact H.
Qed.
End Block.
