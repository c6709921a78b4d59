(** * Facts about configurations. *)
From Verif Require Import Str StrFacts Tokens SpecTokens TokensRun TokensFacts Values Fmt SpecFmt FmtFacts RenderFacts
  WriterFacts LayoutFacts LangBase OutputFacts LangC LangCsharp LangDart LangGo LangJava LangJs LangNix LangPython LangRust LangSwift
  SpecFile SpecBuild FmtConfig SpecConfig.

(** ** Quotes of a stream *)

Section Flat.
Context {LI : Type}.
Implicit Types xs : list (item LI).

(** [flat_quotes] from a given point. *)
Fixpoint flatb (b : list bracket) xs : bool :=
  match xs with
  | [] => true
  | x :: xs' =>
      match x, b with
      | OpenQuote _, BQuote :: _ => false
      | _, _ => match step_bracket b x with Some b' => flatb b' xs' | None => true end
      end
  end.
Lemma flatb_cons b x xs : flatb b (x :: xs) =
  match x, b with OpenQuote _, BQuote :: _ => false | _, _ =>
    match step_bracket b x with Some b' => flatb b' xs | None => true end end.
Proof. reflexivity. Qed.
Lemma flatb_quotes b xs : (forall pre e post b', xs = pre ++ OpenQuote e :: post -> brackets b pre = Some b' ->
    match b' with BQuote :: _ => False | _ => True end) -> flatb b xs = true.
Proof.
  revert b. induction xs as [|x xs IH]; intros b H; [reflexivity|]. rewrite flatb_cons.
  assert (N : match step_bracket b x with Some b' => flatb b' xs | None => true end = true).
  { destruct (step_bracket b x) as [b1|] eqn:S; [|reflexivity]. apply IH. intros pre e post b' -> B.
    apply (H (x :: pre) e post b'); [reflexivity|]. cbn [brackets]. rewrite S. exact B. }
  destruct x; try exact N. destruct b as [|[] b]; try exact N.
  exfalso. exact (H [] has_eval xs _ eq_refl eq_refl).
Qed.
Lemma flatb_app b xs ys : flatb b (xs ++ ys) = flatb b xs && match brackets b xs with Some b' => flatb b' ys | None => true end.
Proof.
  revert b. induction xs as [|x xs IH]; intros b; [reflexivity|]. cbn [app brackets]. rewrite !flatb_cons.
  assert (N : match step_bracket b x with Some b' => flatb b' (xs ++ ys) | None => true end =
    match step_bracket b x with Some b' => flatb b' xs | None => true end &&
    match match step_bracket b x with Some b' => brackets b' xs | None => None end with Some b' => flatb b' ys | None => true end).
  { destruct (step_bracket b x); [apply IH|reflexivity]. }
  destruct x; try exact N. destruct b as [|[] b]; try exact N. reflexivity.
Qed.
Lemma quotes_flatb xs : flatb [] xs = true -> flat_quotes xs.
Proof.
  intros H pre e post b -> B. rewrite flatb_app, B in H. apply andb_prop in H as [_ H]. rewrite flatb_cons in H.
  destruct b as [|[] b]; auto. discriminate.
Qed.
Lemma brackets_app b xs ys : brackets b (xs ++ ys) = match brackets b xs with Some b' => brackets b' ys | None => None end.
Proof. revert b. induction xs as [|x xs IH]; intros b; [reflexivity|]. cbn. destruct (step_bracket b x); auto. Qed.

(** Both depend on the content only. *)
Definition item_of (p : piece LI) : item LI :=
  match p with
  | PText s => Literal s
  | PLang l => Lang 0 l
  | PRegister l => Register 0 l
  | POpenQuote e => OpenQuote e
  | PCloseQuote => CloseQuote
  | POpenEval => OpenEval
  | PCloseEval => CloseEval
  end.
Lemma brackets_pieces xs : forall b, brackets b xs = brackets b (map item_of (pieces xs)).
Proof.
  induction xs as [|x xs IH]; intros b; [reflexivity|]. unfold pieces. cbn [flat_map].
  rewrite map_app, brackets_app. fold (pieces xs).
  destruct x; cbn [piece_of map item_of brackets]; cbn [step_bracket]; try (apply IH);
    repeat match goal with |- context [match ?o with Some _ => _ | None => _ end] => destruct o; try apply IH; auto end;
    try (destruct b as [|[] b]; auto; fail).
Qed.
Lemma flatb_pieces xs : forall b, flatb b xs = flatb b (map item_of (pieces xs)).
Proof.
  induction xs as [|x xs IH]; intros b; [reflexivity|]. unfold pieces. cbn [flat_map].
  rewrite map_app. fold (pieces xs).
  assert (N : forall y : item LI, (forall b, step_bracket b x = step_bracket b y) ->
    match step_bracket b x with Some b' => flatb b' xs | None => true end =
    match step_bracket b y with Some b' => flatb b' (map item_of (pieces xs)) | None => true end).
  { intros y E. rewrite E. destruct (step_bracket b y); auto. }
  destruct x; cbn [piece_of map item_of app]; rewrite ?flatb_cons; try (apply N; reflexivity); try apply IH.
  destruct b as [|[] b]; try (apply N; reflexivity). reflexivity.
Qed.

(** Streams whose strings are flat and closed. *)
Definition tame (t : tokens LI) : Prop := flatb [] (items t) = true /\ brackets [] (items t) = Some [].
Lemma tame_more t t' xs : pieces (items t') = pieces (items t) ++ pieces xs -> tame t ->
  flatb [] xs = true -> flatb [] (items t') = true.
Proof.
  intros E [F B] X. rewrite flatb_pieces, E, map_app, flatb_app, <- !flatb_pieces, <- brackets_pieces, F, B, <- flatb_pieces. exact X.
Qed.
Lemma tame_more' t t' xs : pieces (items t') = pieces (items t) ++ pieces xs -> tame t ->
  flatb [] xs = true -> brackets [] xs = Some [] -> tame t'.
Proof.
  intros E T X Y. split; [exact (tame_more t t' xs E T X)|]. destruct T as [F B].
  rewrite brackets_pieces, E, map_app, brackets_app, <- brackets_pieces, B, <- brackets_pieces. exact Y.
Qed.
Lemma tame_new : tame new.
Proof. split; reflexivity. Qed.
Lemma tame_extend xs t : tame t -> flatb [] xs = true -> brackets [] xs = Some [] -> tame (extend xs t).
Proof. intros T. apply (tame_more' t _ xs); auto. apply extend_pieces. Qed.
Lemma tame_item x t : tame t -> flatb [] [x] = true -> brackets [] [x] = Some [] -> tame (add_item x t).
Proof. apply (tame_extend [x]). Qed.
Lemma tame_space t : tame t -> tame (space t).
Proof. intros T. apply (tame_item Space); auto. Qed.
Lemma tame_push t : tame t -> tame (push t).
Proof. intros T. apply (tame_item Push); auto. Qed.
Lemma tame_line t : tame t -> tame (line t).
Proof. intros T. apply (tame_item Line); auto. Qed.
Lemma tame_indent t : tame t -> tame (indent t).
Proof. intros T. apply (tame_item (Indentation 1)); auto. Qed.
Lemma tame_unindent t : tame t -> tame (unindent t).
Proof. intros T. apply (tame_item (Indentation (-1))); auto. Qed.
Lemma tame_st s t : tame t -> tame (st s t).
Proof. intros T. apply (tame_item (Literal (Static s))); auto. Qed.
Lemma tame_istr s t : tame t -> tame (istr s t).
Proof. intros T. apply (tame_item (Literal s)); auto. Qed.
Lemma tame_txt s t : tame t -> tame (txt s t).
Proof. intros T. apply (tame_item (Literal (Box s))); auto. Qed.
Lemma tame_quoted v x t : parts v = [x] -> (forall u, format_into v u = extend (parts v) u) -> plain x = true ->
  tame t -> tame (append (VQuoted v) t).
Proof.
  intros P F PL T. unfold append. cbn [format_into]. rewrite F, P.
  change (add_item CloseQuote (extend [x] (add_item (OpenQuote false) t))) with (extend [OpenQuote false; x; CloseQuote] t).
  apply tame_extend; auto; destruct x; try discriminate PL; reflexivity.
Qed.
Lemma tame_quoted_istr s t : tame t -> tame (quoted_istr s t).
Proof. unfold quoted_istr. apply (tame_quoted _ (Literal s)); reflexivity. Qed.
Lemma tame_append v t : tame t -> tame v -> tame (append (VTokens v) t).
Proof. intros T [F B]. apply tame_extend; auto. Qed.
Lemma tame_each {A} (f : A -> tokens LI -> tokens LI) l t :
  (forall x t, In x l -> tame t -> tame (f x t)) -> tame t -> tame (for_each f l t).
Proof.
  unfold for_each. revert t. induction l as [|x l IH]; intros t H T; [exact T|]. cbn. apply IH; [|apply H; cbn; auto].
  intros. apply H; cbn; auto.
Qed.
End Flat.

(** ** Elaboration without nested quotes does not depend on the configuration *)

Section Elab.
Context {LI : Type} (ops : lang_ops LI).
Lemma elab_flat cfg1 cfg2 fuel : forall stack (cursor : list (item LI)),
  valid_stack stack -> flatb (conv stack) cursor = true ->
  elab ops cfg1 fuel false stack cursor = elab ops cfg2 fuel false stack cursor.
Proof.
  induction fuel as [|fuel IH]; intros stack cursor V F; [reflexivity|].
  destruct cursor as [|x rest]; [reflexivity|]. destruct stack as [|head below]; [reflexivity|].
  cbn [elab]. rewrite flatb_cons in F.
  assert (TOP : in_quote head = true -> exists b, conv (head :: below) = BQuote :: b /\ conv (mk_frame false false (end_on_eval head) :: below) = b).
  { intros Q. cbn [conv flat_map]. unfold conv_frame. rewrite Q. cbn [in_quote end_on_eval]. eexists. split; reflexivity. }
  assert (VT : forall a b, valid_stack (mk_frame a b (end_on_eval head) :: below)).
  { intros a b. destruct below; cbn in *; auto. }
  assert (NT : in_quote head = false -> match conv (head :: below) with BQuote :: _ => False | _ => True end).
  { intros Q. pose proof (not_quote_top head below false [] V Q) as X. cbn [sfx] in X. rewrite app_nil_r in X. exact X. }
  destruct x as [s|p l|p l| | | |n|e| | |]; cbn [step_bracket] in F;
    try (rewrite (IH (head :: below) rest V F); reflexivity).
  - destruct (in_quote head) eqn:Q; cbn [negb].
    + destruct (TOP eq_refl) as (b & E & _). rewrite E in F. discriminate.
    + rewrite (IH (mk_frame true e (end_on_eval head) :: below) rest); [reflexivity|auto|].
      specialize (NT eq_refl).
      assert (EC : conv (mk_frame true e (end_on_eval head) :: below) = BQuote :: conv (head :: below)).
      { cbn [conv flat_map]. unfold conv_frame at 1 3. rewrite Q. reflexivity. }
      rewrite EC. destruct (conv (head :: below)) as [|[] b0]; try contradiction; exact F.
  - rewrite close_nested_conv' in F. destruct (in_quote head) eqn:Q; [|reflexivity].
    destruct (TOP eq_refl) as (b & E & E2). rewrite E in F. rewrite (IH (mk_frame false false (end_on_eval head) :: below) rest); [reflexivity|auto|].
    rewrite E2. exact F.
  - destruct (in_quote head) eqn:Q; [|reflexivity].
    destruct (TOP eq_refl) as (b & E & E2). rewrite E in F.
    assert (GEN : elab ops cfg1 fuel false (mk_frame false false true :: head :: below) rest =
                  elab ops cfg2 fuel false (mk_frame false false true :: head :: below) rest).
    { apply IH; [split; auto|]. cbn [conv flat_map] in *. unfold conv_frame at 1. cbn [in_quote end_on_eval app]. rewrite E. exact F. }
    destruct rest as [|[s|? ?|? ?| | | |?|?| | |] [|[?|? ?|? ?| | | |?|?| | |] rest']]; rewrite ?GEN; try reflexivity.
    rewrite (IH (head :: below) rest'); [reflexivity|auto|]. rewrite E. exact F.
  - destruct (end_on_eval head) eqn:Q; [|reflexivity].
    destruct below as [|f below]; [cbn in V; congruence|]. destruct V as [_ V].
    rewrite (IH (f :: below) rest); [reflexivity|auto|].
    cbn [conv flat_map] in *. unfold conv_frame at 1 in F. rewrite Q in F.
    destruct (in_quote head); cbn [app] in F; exact F.
Qed.
End Elab.

(** ** The lines of a file *)

Lemma streams_flat {LI C F} (L : lang_def LI C F) c (ts : list (tokens LI * F)) :
  Forall (fun p => flatb [] (items (fst p)) = true) ts ->
  exists l ok, forall cfg W (wr : writer W) st,
    format_streams L wr cfg c ts st = (fst (run_atoms wr cfg l st), snd (run_atoms wr cfg l st) && ok).
Proof.
  induction 1 as [|[t f] ts FL _ (l2 & ok2 & IH)].
  - exists [], true. intros; reflexivity.
  - cbn [fst] in FL. set (cfg0 := mk_config ITab []).
    destruct (RenderFacts.E (ld_ops L c f) cfg0 false [mk_frame false false false] (items t)) as [[l1 r1] ok1] eqn:E.
    assert (H : forall cfg W (wr : writer W) st, format L wr cfg t c f st =
      (fst (run_atoms wr cfg l1 st), snd (run_atoms wr cfg l1 st) && ok1)).
    { intros cfg W wr st. unfold format. pose proof (format_items_elab (ld_ops L c f) cfg wr (items t) st) as X.
      unfold RenderFacts.E in *. rewrite (elab_flat (ld_ops L c f) cfg cfg0) in X by (try exact FL; reflexivity). rewrite E in X. exact X. }
    destruct ok1.
    + exists (l1 ++ l2), ok2. intros cfg W wr st. cbn [format_streams]. rewrite H, run_atoms_app.
      destruct (run_atoms wr cfg l1 st) as [st' [|]]; cbn [fst snd andb and_then]; [apply IH|reflexivity].
    + exists l1, false. intros cfg W wr st. cbn [format_streams]. rewrite H. rewrite andb_false_r.
      reflexivity.
Qed.

Lemma atoms_vec cfg l : exists st', run_atoms vec_writer cfg l (formatter_new vec_new) = (st', true) /\
  into_vec (f_write st') = sym_lines (layout (c_indentation cfg) l).
Proof.
  destruct (fresh_trace cfg l) as [tr [stt [E1 [E2 [E3 E4]]]]].
  pose proof (run_atoms_sim vec_writer cfg l (formatter_new []) vec_new) as [tr2 [S1 S2]].
  rewrite E1 in S1, S2. cbn [fst snd f_write put formatter_new app] in S1, S2.
  rewrite E2 in S1. cbn in S1. subst tr2.
  change (put (formatter_new []) vec_new) with (formatter_new vec_new) in S2.
  destruct (replay_vec cfg tr E3 [] []) as [v [V1 V2]].
  change vec_new with (mk_vec [] []) in S2 at 1. rewrite V1 in S2. rewrite S2. eexists. split; [reflexivity|].
  cbn [f_write put]. rewrite V2, E4.
  pose proof (sym_lines_nonempty (layout (c_indentation cfg) l)). destruct (sym_lines (layout (c_indentation cfg) l)); [congruence|auto].
Qed.

Lemma file_lines {LI C F} (L : lang_def LI C F) c t :
  Forall (fun p => flatb [] (items (fst p)) = true) (ld_format_file L t c) ->
  exists lines ok, forall cfg,
    outcome (format_file L string_writer cfg t c (formatter_new [])) =
      (join (c_newline cfg) (map (styled (c_indentation cfg)) lines) ++ (if ok : bool then c_newline cfg else []), ok) /\
    (into_vec (fst (outcome (format_file L vec_writer cfg t c (formatter_new vec_new)))),
     snd (outcome (format_file L vec_writer cfg t c (formatter_new vec_new)))) =
      (map (styled (c_indentation cfg)) lines, ok).
Proof.
  intros FL. destruct (streams_flat L c (ld_format_file L t c) FL) as (l & ok & H).
  destruct (layout_style l) as [ls HL]. exists ls, ok. intros cfg.
  assert (ML : map (fun '(lv, r) => indent_text (c_indentation cfg) lv ++ r) ls = map (styled (c_indentation cfg)) ls).
  { apply map_ext. intros []; reflexivity. }
  unfold format_file. rewrite !H.
  destruct (run_string_new cfg l []) as [st1 [R1 R2]]. destruct (atoms_vec cfg l) as [st2 [R3 R4]].
  unfold str in *. rewrite R1, R3. cbn [fst snd andb].
  rewrite text_join, HL, ML in R2. rewrite HL, ML in R4.
  split; destruct ok; cbn [and_then]; unfold outcome, write_trailing_line, on_write; cbn;
    rewrite ?R2, ?R4, ?app_nil_r; reflexivity.
Qed.

(** ** The headers *)

Ltac tame1 := first
  [ assumption | apply tame_new | apply tame_space | apply tame_push | apply tame_line | apply tame_indent | apply tame_unindent
  | apply tame_st | apply tame_istr | apply tame_txt | apply tame_quoted_istr ].
Ltac tames := repeat tame1.

Lemma fold_tame {LI A X} (g : X -> tokens LI) (f : X -> A -> X) l x :
  (forall x a, tame (g x) -> tame (g (f x a))) -> tame (g x) -> tame (g (fold_left f l x)).
Proof. intros H. revert x. induction l as [|a l IH]; intros x T; [exact T|]. cbn. auto. Qed.

Lemma c_tame t : tame (c_imports t new).
Proof.
  unfold c_imports. destruct (fold_left _ _ _); [tames|]. apply tame_line, tame_each; [|tames].
  intros [f []] o _ T; cbn beta iota; tames.
Qed.
Lemma dart_tame t : tame (dart_imports t new).
Proof.
  unfold dart_imports. destruct (fold_left _ _ _); [tames|]. apply tame_line, tame_each; [|tames].
  intros [f []] o _ T; cbn beta iota; tames.
Qed.
Lemma go_tame p t : tame (go_header p t).
Proof.
  unfold go_header, go_imports. destruct (fold_left _ _ _).
  - destruct p; tames.
  - apply tame_line, tame_each; [|destruct p; tames]. intros f o _ T; tames.
Qed.
Lemma swift_tame t : tame (swift_imports t new).
Proof.
  unfold swift_imports. apply tame_line. destruct (fold_left _ _ _); [tames|]. apply tame_each; [|tames].
  intros f o _ T; tames.
Qed.
Lemma java_tame p t : tame (fst (java_header p t)).
Proof.
  unfold java_header, java_imports.
  assert (T : tame (match p with Some p => new |> st $"package" |> space |> istr p |> st $";" |> line | None => @new java_import end)).
  { destruct p; tames. }
  revert T. generalize (match p with Some p => new |> st $"package" |> space |> istr p |> st $";" |> line | None => @new java_import end).
  intros h T. destruct (fold_left _ (walk_imports t) _) as [|m ms]; [exact T|].
  match goal with |- context [fold_left ?f ?l ?x] => pose proof (fold_tame fst f l x) as X; destruct (fold_left f l x) as [o im] end.
  cbn [fst] in *. apply tame_line, X; auto.
  intros [o1 im1] [pk nm] T1. cbn [fst] in T1. unfold java_step.
  destruct (map_get _ _ _); [exact T1|]. destruct (str_eqb _ _); [exact T1|]. destruct (opt_str_eqb _ _); [exact T1|].
  cbn [fst]. apply tame_push, tame_append; [exact T1|]. unfold java_import_stmt. tames.
Qed.
Lemma cs_tame c t : tame (fst (cs_imports t c new [])).
Proof.
  unfold cs_imports. destruct (fold_left _ (walk_imports t) _) as [|m ms]; [tames|].
  match goal with |- context [fold_left ?f ?l ?x] => pose proof (fold_tame (fun y => fst (fst y)) f l x) as X; destruct (fold_left f l x) as [[o im] nm] end.
  cbn [fst] in *. apply tame_line, X; [|tames].
  intros [[o1 im1] nm1] [pk n] T1. cbn [fst] in T1. unfold cs_step.
  destruct (opt_str_eqb _ _); [exact T1|]. destruct (map_get _ _ _); [exact T1|]. destruct (negb _); cbn [fst]; tames.
Qed.
Lemma js_from_tame relative mp m t : tame t -> tame (js_render_from relative mp m t).
Proof.
  intros T. unfold js_render_from, js_from_text. destruct mp, m;
    first [ eapply (tame_quoted (VItemStr _)) | eapply (tame_quoted (VStr _)) ]; try reflexivity; auto; intros; reflexivity.
Qed.
Lemma js_elements_tame els : forall t, tame t -> tame (js_elements els t).
Proof.
  assert (ET : forall e t, tame t -> tame (js_element_tokens e t)) by (intros [] t T; cbn [js_element_tokens]; tames).
  induction els as [|e els IH]; intros t T; [exact T|]. cbn [js_elements]. destruct els; [auto|].
  apply IH. tames. apply ET; auto.
Qed.
Lemma js_tame relative t mp : tame (js_imports relative t mp new).
Proof.
  unfold js_imports. destruct (js_collect _) as [ms ws].
  assert (X : tame (line (for_each (fun '(name, module) out =>
        out |> push |> st $"import" |> space |> js_bindings module |> space
            |> st $"from" |> space |> js_render_from relative mp name |> st $";") ms
     (for_each (fun '(module, name) out =>
        out |> push |> st $"import" |> space |> st $"*" |> space |> st $"as"
            |> space |> istr name |> space |> st $"from" |> space
            |> js_render_from relative mp module |> st $";") ws new)))).
  { apply tame_line, tame_each; [|apply tame_each; [|tames]].
    - intros [n r] o _ T. tames. apply js_from_tame. tames. unfold js_bindings.
      assert (D : tame (match r_default r with Some default => let t := istr default (o |> push |> st $"import" |> space) in
          match r_set r with [] => t | _ => t |> txt $"," |> space end | None => o |> push |> st $"import" |> space end)).
      { destruct (r_default r); [|tames]. destruct (r_set r); tames. }
      destruct (r_set r); [exact D|]. tames. apply js_elements_tame. tames.
    - intros [n r] o _ T. tames. apply js_from_tame. tames. }
  destruct ms, ws; exact X || tames.
Qed.
Lemma py_as_tame a t : tame t -> tame (py_as a t).
Proof. intros T. destruct a; cbn [py_as]; tames. Qed.
Lemma py_joined_tame els : Forall tame els -> forall t, tame t -> tame (py_joined els t).
Proof.
  induction 1 as [|e els T _ IH]; intros t T1; [exact T1|]. cbn [py_joined]. destruct els; [apply tame_append; auto|].
  apply IH. tames. apply tame_append; auto.
Qed.
Lemma py_tame t : tame (py_imports t new).
Proof.
  unfold py_imports. destruct (py_collect _) as [fs is].
  assert (X : tame (line (for_each py_import_stmt is (for_each py_from_stmt fs new)))).
  { apply tame_line, tame_each; [|apply tame_each; [|tames]].
    - intros [m a] o _ T. unfold py_import_stmt. apply py_as_tame. tames.
    - intros [m names] o _ T. unfold py_from_stmt.
      assert (E : Forall tame (map py_element names)).
      { apply Forall_forall. intros e I. apply in_map_iff in I as (k & <- & _). unfold py_element. apply py_as_tame. tames. }
      assert (O : tame (o |> push |> st $"from" |> space |> istr m |> space |> st $"import" |> space)) by tames.
      destruct (Nat.eqb _ 1); [|apply py_joined_tame; auto].
      destruct (map py_element names) as [|e els]; [exact O|]. inversion E; subst. apply tame_append; auto. }
  destruct fs, is; exact X || tames.
Qed.
Lemma rust_tame t c : tame (rust_imports t c new).
Proof.
  unfold rust_imports.
  match goal with |- context [fold_left ?f ?l ?x] => pose proof (fold_tame fst f l x) as X; destruct (fold_left f l x) as [o any] end.
  cbn [fst] in X. assert (T : tame o).
  { apply X; [|tames]. intros [o1 b] [n u] T1. cbn [fst] in T1. unfold rust_use_stmt.
    assert (RT : forall r o, tame o -> tame (rust_render_item r o)).
    { intros [| a |m [a|]] t0 T0; cbn [rust_render_item]; tames. }
    destruct (rust_iter n u) as [|first [|second more]]; [exact T1| |].
    - cbn [fst]. destruct first as [| a |m [a|]]; tames.
    - cbn [fst]. tames. apply tame_each.
      + intros r t0 _ T0. apply RT. tames.
      + apply RT. tames. apply RT. tames. }
  destruct any; tames.
Qed.
Lemma set_insert_incl {A} (c : A -> A -> comparison) k l x : In x (set_insert c k l) -> x = k \/ In x l.
Proof.
  induction l as [|y l IH]; cbn; [intuition|]. destruct (c k y); cbn; intuition.
Qed.
Lemma walk_incl {LI} (t : tokens LI) i : In i (walk_imports t) -> In i (uses t).
Proof.
  unfold walk_imports. generalize (S (length (items t))) (last_lang_item t). intros fuel.
  induction fuel as [|fuel IH]; intros pos; [intros []|]. cbn [walk_from]. unfold walk_next.
  destruct pos as [|p]; [intros []|]. destruct (nth_error (items t) p) as [x|] eqn:N; [|intros []].
  apply nth_error_In in N.
  destruct x as [ |prev l|prev l| | | | | | | | ]; try (intros []); intros; subst; try (eapply IH; eassumption);
    unfold uses, imports_of; apply in_flat_map; eexists; (split; [exact N|cbn; auto]).
Qed.
Lemma nix_tame scoped t :
  (forall n v l, In (NVariable n v l) (uses t) -> tame (nix_value v l)) -> tame (nix_header scoped t).
Proof.
  intros HV. unfold nix_header.
  assert (A : tame (if scoped then new else nix_arguments t new)).
  { destruct scoped; [tames|]. unfold nix_arguments. tames. apply tame_each; [|tames]. intros a o _ T. tames. }
  assert (W : tame (nix_withs t (if scoped then new else nix_arguments t new))).
  { unfold nix_withs. destruct (fold_left _ _ _); [exact A|]. apply tame_line, tame_each; [|exact A]. intros a o _ T. tames. }
  revert W. generalize (nix_withs t (if scoped then new else nix_arguments t new)). intros h W.
  unfold nix_imports.
  assert (VS : forall is acc, (forall n v l, In (NVariable n v l) is -> In (NVariable n v l) (walk_imports t)) ->
    (forall n v l, In (n, (v, l)) (snd acc) -> In (NVariable n v l) (walk_imports t)) ->
    forall n v l, In (n, (v, l)) (snd (fold_left nix_collect_one is acc)) -> In (NVariable n v l) (walk_imports t)).
  { induction is as [|i is IH]; intros acc H1 H2; [exact H2|]. cbn [fold_left]. apply IH; [intros; apply H1; cbn; auto|].
    intros n v l I. destruct acc as [a b]. destruct i; cbn [nix_collect_one snd] in I; try (apply H2; exact I).
    apply set_insert_incl in I as [E|I]; [|apply H2; exact I]. injection E as -> -> ->. apply H1. cbn; auto. }
  specialize (VS (walk_imports t) ([], []) (fun _ _ _ I => I) (fun _ _ _ (I : In _ []) => match I with end)).
  destruct (fold_left nix_collect_one _ _) as [inh vars]. cbn [snd] in VS.
  assert (X : tame (for_each (fun '(name, (value, last)) out =>
        out |> istr name |> space |> st $"=" |> space
            |> append (VTokens (nix_value value last)) |> st $";" |> push) vars
      (for_each (fun '(path, name) out =>
        out |> st $"inherit" |> space |> st $"(" |> istr path |> st $")" |> space
            |> istr name |> st $";" |> push) inh (h |> txt $"let" |> push |> indent)) |> unindent |> txt $"in" |> push |> line)).
  { tames. apply tame_each; [|apply tame_each; [|tames]].
    - intros [n [v l]] o I T. tames. apply tame_append; [tames|]. eapply HV, walk_incl, VS, I.
    - intros [p n] o _ T. tames. }
  destruct inh, vars; first [exact W | exact X].
Qed.

(** ** The files *)

Lemma two_flat {LI F} (h t : tokens LI) (f g : F) : tame h -> flatb [] (items t) = true ->
  Forall (fun p : tokens LI * F => flatb [] (items (fst p)) = true) [(h, f); (t, g)].
Proof. intros [H _] T. repeat constructor; auto. Qed.
Lemma cs_flat c t : flatb [] (items t) = true -> Forall (fun p => flatb [] (items (fst p)) = true) (cs_format_file t c).
Proof.
  intros T. unfold cs_format_file. pose proof (cs_tame c t) as H. destruct (cs_imports t c new []) as [h names]. cbn [fst] in H.
  destruct c as [ns|]; [|apply two_flat; auto]. repeat constructor. cbn [fst]. unfold cs_namespace_block.
  set (h' := h |> st $"namespace" |> space |> istr ns |> space |> st $"{" |> indent).
  assert (T' : tame h') by (unfold h'; tames).
  apply (tame_more h' _ (items t ++ [Indentation (-1); Literal (Static $"}")])).
  - change (h' |> append (VTokens t) |> unindent |> st $"}") with (extend [Indentation (-1); Literal (Static $"}")] (extend (items t) h')).
    rewrite !extend_pieces. unfold pieces. rewrite flat_map_app, app_assoc. reflexivity.
  - exact T'.
  - rewrite flatb_app, T. destruct (brackets [] (items t)) as [[|[] ]|]; reflexivity.
Qed.
