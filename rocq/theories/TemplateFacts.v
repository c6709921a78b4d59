(** * Interpolated strings are read back. *)
From Verif Require Import Str SpecStr StrFacts Tokens Fmt SpecFmt RenderFacts LayoutFacts OutputFacts
  StringFacts SpecLex LexFacts SpecTemplate.

(** ** Atoms on one line *)
Lemma on_line_texts ss : forall p l, concat ss <> [] ->
  on_line p (texts ss ++ l) = repeat 32%N p ++ concat ss ++ on_line 0 l.
Proof.
  assert (Z : forall ss l, on_line 0 (texts ss ++ l) = concat ss ++ on_line 0 l).
  { clear. induction ss as [|x ss IH]; intros l; cbn [texts map app on_line a_text concat]; auto.
    destruct x as [|c x]; cbn [a_space]; rewrite IH; auto. cbn [repeat app]. rewrite <- app_assoc. auto. }
  induction ss as [|x ss IH]; intros p l H; cbn [concat] in *; [congruence|].
  cbn [texts map app on_line a_text]. destruct x as [|c x]; cbn [a_space].
  - apply IH, H.
  - change (map AText ss) with (texts ss). rewrite Z, <- app_assoc. auto.
Qed.
Lemma on_line_none ss : forall p l, concat ss = [] -> on_line p (texts ss ++ l) = on_line p l.
Proof.
  induction ss as [|x ss IH]; intros p l H; cbn [concat texts map app] in *; auto.
  apply app_eq_nil in H as [-> H]. cbn [on_line a_text a_space]. apply IH, H.
Qed.
Lemma on_line_zero ss l : on_line 0 (texts ss ++ l) = concat ss ++ on_line 0 l.
Proof.
  destruct (concat ss) eqn:E.
  - rewrite on_line_none; auto.
  - rewrite on_line_texts, E by (rewrite E; discriminate). auto.
Qed.
(** Up to a text. *)
Lemma on_line_upto l1 : forall p ss l2, concat ss <> [] ->
  on_line p (l1 ++ texts ss ++ l2) = on_line p l1 ++ concat ss ++ on_line 0 l2.
Proof.
  induction l1 as [|a l1 IH]; intros p ss l2 H; cbn [app].
  - rewrite on_line_texts; auto.
  - cbn [on_line]. destruct (a_text a) as [|c t]; rewrite IH by auto; auto.
    rewrite <- !app_assoc. auto.
Qed.

Definition inline (a : atom) : bool := match a with AText _ | ASpace => true | _ => false end.
Lemma inline_gap gap : forallb inline gap = true ->
  existsb a_line gap = false /\ existsb a_break gap = false /\ net gap = 0%Z.
Proof.
  induction gap as [|a gap IH]; cbn; auto. intros H. apply andb_true_iff in H as [A H].
  destruct (IH H) as [H1 [H2 H3]]. rewrite H1, H2, H3. destruct a; try discriminate A; auto.
Qed.
Lemma text_char nl c l : text nl (Ch c :: l) = c :: text nl l.
Proof. reflexivity. Qed.
Lemma text_blanks nl n : text nl (blanks n) = repeat 32%N n.
Proof. unfold text, blanks. induction n; cbn; congruence. Qed.
Lemma separator_blank cfg first lvl gap : Forall (fun c => In c (c_newline cfg) \/ c = 32%N \/ c = 9%N)
  (text (c_newline cfg) (separator (c_indentation cfg) first lvl gap)).
Proof.
  unfold separator.
  assert (P : forall lvl, Forall (fun c => In c (c_newline cfg) \/ c = 32%N \/ c = 9%N)
      (text (c_newline cfg) (pad (c_indentation cfg) lvl))).
  { intros l. rewrite pad_text, text_chars. unfold indent_text.
    destruct (c_indentation cfg); apply Forall_forall; intros c Hc; apply repeat_spec in Hc; auto. }
  assert (Q : forall n, Forall (fun c => In c (c_newline cfg) \/ c = 32%N \/ c = 9%N)
      (text (c_newline cfg) (blanks n))).
  { intros n. rewrite text_blanks. apply Forall_forall; intros c Hc; apply repeat_spec in Hc; auto. }
  assert (R : Forall (fun c => In c (c_newline cfg) \/ c = 32%N \/ c = 9%N) (c_newline cfg)).
  { apply Forall_forall. auto. }
  destruct first; [|destruct (existsb a_line _); [|destruct (existsb a_break _)]];
    rewrite ?text_app; repeat (apply Forall_app; split); auto; cbn; rewrite ?app_nil_r; auto;
    repeat (apply Forall_app; split); auto.
Qed.
(** Inline atoms that end with a text are laid out on the line. *)
Lemma layout_on_line ind nl l : forall lvl gap ss l2,
  forallb inline l = true -> forallb inline gap = true -> concat ss <> [] ->
  exists lvl' gap', text nl (layout_from ind false lvl gap (l ++ texts ss ++ l2)) =
    on_line (count_spaces gap) (l ++ texts ss) ++ text nl (layout_from ind false lvl' gap' l2).
Proof.
  assert (T : forall ss l2 lvl gap, forallb inline gap = true -> concat ss <> [] -> exists lvl' gap',
    text nl (layout_from ind false lvl gap (texts ss ++ l2)) =
    on_line (count_spaces gap) (texts ss) ++ text nl (layout_from ind false lvl' gap' l2)).
  { clear l. assert (Z : forall ss l2 lvl gap, forallb inline gap = true -> count_spaces gap = 0 -> exists lvl' gap',
      text nl (layout_from ind false lvl gap (texts ss ++ l2)) =
      on_line 0 (texts ss) ++ text nl (layout_from ind false lvl' gap' l2)).
    { induction ss as [|x ss IH]; intros l2 lvl gap G C; cbn [texts map app layout_from on_line a_text].
      - eexists _, _. reflexivity.
      - destruct x as [|c x]; cbn [a_space].
        + apply IH; [rewrite forallb_app, G; auto|]. unfold count_spaces in *. rewrite filter_app, app_length, C. auto.
        + cbv zeta. destruct (inline_gap gap G) as [G1 [G2 G3]].
          destruct (IH l2 (lvl + net gap)%Z [] eq_refl eq_refl) as [lvl' [gap' IHt]].
          unfold separator. rewrite G1, G2, C. rewrite text_app. cbn [blanks repeat app]. rewrite text_char, text_app, text_chars.
          change (map AText ss) with (texts ss). rewrite IHt. exists lvl', gap'.
          cbn [text flat_map repeat app]. rewrite <- app_assoc. auto. }
    induction ss as [|x ss IH]; intros l2 lvl gap G C; cbn [concat] in C; [congruence|].
    cbn [texts map app layout_from on_line a_text].
    destruct x as [|c x]; cbn [a_space].
    - destruct (IH l2 lvl (gap ++ [AText []])) as [lvl' [gap' H]]; auto; [rewrite forallb_app, G; auto|].
      exists lvl', gap'. unfold count_spaces in *. rewrite filter_app in H. cbn [filter a_space] in H.
      rewrite app_nil_r in H. exact H.
    - cbv zeta. destruct (inline_gap gap G) as [G1 [G2 G3]].
      destruct (Z ss l2 (lvl + net gap)%Z [] eq_refl eq_refl) as [lvl' [gap' IHt]].
      unfold separator. rewrite G1, G2. rewrite text_app, text_blanks. cbn [map app]. rewrite text_char, text_app, text_chars.
      change (map AText ss) with (texts ss). rewrite IHt. exists lvl', gap'. rewrite <- app_assoc. cbn [app]. rewrite <- app_assoc. auto. }
  induction l as [|a l IH]; intros lvl gap ss l2 L G C; cbn [app]; [apply T; auto|].
  cbn [forallb] in L. apply andb_true_iff in L as [A L].
  cbn [layout_from on_line]. destruct (a_text a) as [|c t] eqn:E.
  - destruct (IH lvl (gap ++ [a]) ss l2) as [lvl' [gap' H]]; auto; [rewrite forallb_app, G; cbn; rewrite A; auto|].
    exists lvl', gap'. rewrite H. f_equal. f_equal. unfold count_spaces. rewrite filter_app, app_length.
    cbn [filter]. destruct (a_space a); cbn [length]; lia.
  - cbv zeta. destruct (inline_gap gap G) as [G1 [G2 G3]].
    destruct (IH (lvl + net gap)%Z [] ss l2) as [lvl' [gap' H]]; auto.
    unfold separator. rewrite G1, G2. rewrite text_app, text_blanks. cbn [map app]. rewrite text_char, text_app, text_chars, H.
    exists lvl', gap'. rewrite <- app_assoc. cbn [app]. rewrite <- app_assoc. auto.
Qed.

(** ** Reading back *)
Lemma read_string_eq L f q g s : read_string L (S f) q g s =
  match lex g MText s with
  | Some (v, c :: r) =>
      if N.eqb c q then Some ([SText v], r)
      else if N.eqb c (chr "$") then
        match r with
        | x :: r' =>
            if N.eqb x (chr "{") then
              match read_code L f 0 r' with
              | Some (src, r'') => first_said [SText v; SCode src] (read_string L f q g r'')
              | None => None
              end
            else if is_letter x then
              let '(n, r'') := take_name r in first_said [SText v; SCode n] (read_string L f q g r'')
            else None
        | [] => None
        end
      else None
  | _ => None
  end.
Proof. reflexivity. Qed.
Lemma read_code_eq L f depth c r : read_code L (S f) depth (c :: r) =
  if t_strange L (c :: r) then None
  else if N.eqb c (chr "{") then before_all [c] (read_code L f (S depth) r)
  else if N.eqb c (chr "}") then
    match depth with
    | O => Some ([], r)
    | S d => before_all [c] (read_code L f d r)
    end
  else
    match t_open L c with
    | Some g =>
        match read_string L f c g r with
        | Some (_, r') => before_all (c :: firstn (length r - length r') r) (read_code L f depth r')
        | None => None
        end
    | None => before_all [c] (read_code L f depth r)
    end.
Proof. reflexivity. Qed.
Lemma before_all_app a b r : before_all a (before_all b r) = before_all (a ++ b) r.
Proof. destruct r as [[x y]|]; cbn; rewrite ?app_assoc; auto. Qed.
Lemma depth_after_app s1 : forall d s2,
  depth_after d (s1 ++ s2) =
  match depth_after d s1 with Some d' => depth_after d' s2 | None => None end.
Proof.
  induction s1 as [|c s1 IH]; intros d s2; cbn [app depth_after]; auto.
  destruct (N.eqb c (chr "{")); auto. destruct (N.eqb c (chr "}")).
  - destruct d; auto.
  - destruct (_ || _); auto.
Qed.
Lemma depth_after_blanks n d : depth_after d (repeat 32%N n) = Some d.
Proof. induction n; auto. Qed.

Definition ordinary (c : N) : Prop :=
  c <> 34%N /\ c <> chr "'" /\ c <> chr "`" /\ c <> chr "/" /\ is_line_end c = false.
Lemma depth_after_ordinary d c r d' : depth_after d (c :: r) = Some d' -> ordinary c.
Proof.
  cbn [depth_after]. destruct (N.eqb_spec c (chr "{")) as [->|_].
  { intros _. repeat split; discriminate. }
  destruct (N.eqb_spec c (chr "}")) as [->|_].
  { intros _. repeat split; discriminate. }
  destruct (N.eqb_spec c 34); [discriminate|].
  destruct (N.eqb_spec c (chr "'")); [discriminate|].
  destruct (N.eqb_spec c (chr "`")); [discriminate|].
  destruct (N.eqb_spec c (chr "/")); [discriminate|].
  destruct (is_line_end c) eqn:E; [discriminate|]. repeat split; auto.
Qed.

Lemma take_name_app s rest : forallb name_part s = true ->
  match hd_error rest with Some c => name_part c = false | None => True end ->
  take_name (s ++ rest) = (s, rest).
Proof.
  induction s as [|c s IH]; cbn [forallb app take_name]; intros F H.
  - destruct rest as [|c rest]; cbn in *; auto. rewrite H. auto.
  - apply andb_true_iff in F as [F1 F2]. rewrite F1, IH; auto.
Qed.

Definition units_of (x : says) : said :=
  match x with Says s => SText (flat_map utf16_units s) | Does src => SCode src end.

Section Back.
Context {LI : Type} (ops : lang_ops LI) (cfg : config) (L : strings).
Context (text_ok : bool -> str -> Prop) (opens_after : N -> bool) (single_ok : str -> option N -> Prop).
Context (q : bool -> N) (g : bool -> grammar) (esc : N -> str).
Context (Hopen' : forall e, l_open_quote ops e = [[q e]])
        (Hclose : forall e, concat (l_close_quote ops e) = [q e])
        (Hstart : concat (l_start_string_eval ops) = $"${")
        (Hend : concat (l_end_string_eval ops) = $"}")
        (Hwrite : forall s, concat (l_write_quoted ops s) = flat_map esc s)
        (Hq : forall e, t_open L (q e) = Some (g e))
        (Hq' : forall e, q e <> chr "$" /\ q e <> chr "{" /\ q e <> chr "}" /\ name_part (q e) = false)
        (Hesc : forall c, exists x r, esc c = x :: r /\ x <> 34%N /\ (x = c \/ x = 92%N))
        (Htext : forall e s rest, text_ok e s ->
           hd_error rest = Some (q e) \/
           e = true /\ (exists r, rest = $"${" ++ r \/
             (exists v nx, single_ok v nx /\ rest = concat (l_string_eval_literal ops v) ++ r)) ->
           lex (g e) MText (flat_map esc s ++ rest) = Some (flat_map utf16_units s, rest))
        (Hsingle : forall s nx, single_ok s nx ->
           (concat (l_string_eval_literal ops s) = $"${" ++ s ++ $"}" /\ depth_after 0 s = Some 0) \/
           (concat (l_string_eval_literal ops s) = $"$" ++ s /\
            (exists c r, s = c :: r /\ is_letter c = true /\ forallb name_part r = true) /\
            match nx with Some c => name_part c = false | None => True end))
        (Hplain : forall c r, ordinary c -> opens_after c = true \/ hd_error r <> Some 34%N ->
           t_strange L (c :: r) = false)
        (Hplain' : forall c, ordinary c -> t_open L c = None)
        (Hstring : forall e body rest, hd_error body <> Some 34%N ->
           body <> [] \/ opens_after 34 = true \/ hd_error rest <> Some 34%N ->
           t_strange L (q e :: body ++ q e :: rest) = false)
        (Hbrace : opens_after (chr "}") = true).

Notation fine := (code_fine ops cfg text_ok opens_after single_ok).
Notation says := (string_says ops cfg text_ok opens_after single_ok).
Scheme fine_rec := Minimality for code_fine Sort Prop
with says_rec := Minimality for string_says Sort Prop.
Combined Scheme both_ind from fine_rec, says_rec.

Lemma Hopen e : concat (l_open_quote ops e) = [q e].
Proof. rewrite Hopen'. reflexivity. Qed.
Definition body (ps : list (part LI)) : str := on_line 0 (flat_map (part_atoms ops cfg) ps).
Definition source (ns : list (node LI)) (p : nat) : str := on_line p (doc_atoms ops cfg ns).

Lemma source_cons x ns p : source (x :: ns) p = on_line p (node_atoms ops cfg x ++ doc_atoms ops cfg ns).
Proof. reflexivity. Qed.
Lemma source_space ns p : source (NItem Space :: ns) p = source ns (S p).
Proof. reflexivity. Qed.
Lemma inline_atoms x s : inline_text ops x = Some s ->
  exists ss, node_atoms ops cfg (NItem x) = texts ss /\ concat ss = s.
Proof.
  destruct x; cbn; intros E; inversion E; subst.
  - eexists [_]. split; [reflexivity|]. apply app_nil_r.
  - eexists. split; reflexivity.
  - exists []. auto.
Qed.
Lemma source_text x s ns p : inline_text ops x = Some s ->
  source (NItem x :: ns) p =
  match s with [] => source ns p | _ => repeat 32%N p ++ s ++ source ns 0 end.
Proof.
  intros E. destruct (inline_atoms x s E) as [ss [H1 <-]]. rewrite source_cons, H1.
  destruct (concat ss) eqn:C.
  - apply on_line_none, C.
  - rewrite on_line_texts by congruence. rewrite C. auto.
Qed.
Lemma source_string e ps ns p :
  source (NString e ps :: ns) p = repeat 32%N p ++ q e :: body ps ++ q e :: source ns 0.
Proof.
  rewrite source_cons, node_atoms_string, <- !app_assoc, on_line_texts by (rewrite Hopen; discriminate).
  rewrite on_line_upto by (rewrite Hclose; discriminate). rewrite Hopen, Hclose. auto.
Qed.
Lemma body_text s ps : body (PItem (Literal s) :: ps) = flat_map esc (content s) ++ body ps.
Proof.
  unfold body. cbn [flat_map part_atoms string_item]. rewrite on_line_zero, Hwrite. auto.
Qed.
Lemma body_code ns ps : single_literal ns = None ->
  body (PEval ns :: ps) = $"${" ++ source ns 0 ++ $"}" ++ body ps.
Proof.
  intros E. unfold body. cbn [flat_map]. rewrite part_atoms_eval, E, <- !app_assoc.
  rewrite on_line_zero, on_line_upto by (rewrite Hend; discriminate). rewrite Hstart, Hend. auto.
Qed.
Lemma body_single ns s ps : single_literal ns = Some s ->
  body (PEval ns :: ps) = concat (l_string_eval_literal ops s) ++ body ps.
Proof.
  intros E. unfold body. cbn [flat_map]. rewrite part_atoms_eval, E. apply on_line_zero.
Qed.

(** The start of what follows. *)
Lemma first_char c d ns c' d' : fine c d ns c' d' -> forall p rest,
  opens_after c = false -> hd_error rest <> Some 34%N ->
  hd_error (source ns p ++ rest) <> Some 34%N.
Proof.
  induction 1 as [c d|c d ns c' d' H IH|c d x s d1 ns c' d' E D H IH|c d e ps out ns c' d' O];
    intros p rest A R.
  - cbn. destruct p; cbn; auto. discriminate.
  - rewrite source_space. unfold source. 
    assert (G : forall l p, hd_error (on_line (S p) l ++ rest) = Some 32%N).
    { clear. induction l as [|a l IH]; intros p; cbn [on_line]; auto.
      destruct (a_text a); auto. destruct (a_space a); auto. }
    rewrite G. discriminate.
  - rewrite (source_text x s) by auto. destruct s as [|x0 s]; [apply IH; auto|].
    apply depth_after_ordinary in D as [D _]. destruct p; cbn; congruence.
  - congruence.
Qed.
Lemma text_first s r : hd_error (flat_map esc s ++ r) =
  match s with [] => hd_error r | c :: _ => hd_error (esc c) end.
Proof.
  destruct s as [|c s]; auto. cbn [flat_map]. destruct (Hesc c) as [x [t [-> _]]]. auto.
Qed.
Lemma single_first s nx : single_ok s nx -> exists r, concat (l_string_eval_literal ops s) = chr "$" :: r.
Proof. intros H. destruct (Hsingle s nx H) as [[-> _]|[-> _]]; eexists; reflexivity. Qed.
Lemma body_first e acc ps out : says e acc ps out -> forall r,
  hd_error (body ps ++ r) =
  match text_head ps with
  | Some c => hd_error (esc c)
  | None => match body ps with [] => hd_error r | _ => Some (chr "$") end
  end.
Proof.
  induction 1 as [e acc T|e acc s ps out H IH|acc ns c ps out T N F H IH|acc ns s ps out T N F H IH];
    intros r.
  - reflexivity.
  - rewrite body_text, <- app_assoc, text_first. cbn [text_head]. destruct (content s); auto.
  - rewrite body_code by auto. reflexivity.
  - rewrite (body_single ns s) by auto. destruct (single_first _ _ F) as [t ->]. reflexivity.
Qed.

Lemma read_text s : forall d d' f rest,
  depth_after d s = Some d' ->
  s = [] \/ opens_after (last s 0%N) = true \/ hd_error rest <> Some 34%N ->
  length (s ++ rest) < f ->
  exists f', length rest < f' /\ read_code L f d (s ++ rest) = before_all s (read_code L f' d' rest).
Proof.
  induction s as [|c s IH]; intros d d' f rest D O F; cbn [app length] in *.
  - exists f. split; auto. inversion D; subst. destruct (read_code L f d' rest) as [[a b]|]; auto.
  - destruct f as [|f]; [lia|].
    pose proof (depth_after_ordinary _ _ _ _ D) as C.
    assert (St : t_strange L (c :: s ++ rest) = false).
    { apply Hplain; auto. destruct s as [|c' s].
      - destruct O as [O|O]; [discriminate|]. exact O.
      - right. change (c :: c' :: s) with ([c] ++ c' :: s) in D. rewrite depth_after_app in D.
        destruct (depth_after d [c]) as [d0|]; [|discriminate].
        apply depth_after_ordinary in D as [D _]. cbn. congruence. }
    rewrite read_code_eq, St. cbn [depth_after] in D.
    assert (O' : s = [] \/ opens_after (last s 0%N) = true \/ hd_error rest <> Some 34%N).
    { destruct s; auto. right. destruct O as [O|O]; [discriminate|exact O]. }
    rewrite (Hplain' c C).
    assert (G : forall d1, depth_after d1 s = Some d' -> exists f', length rest < f' /\
      before_all [c] (read_code L f d1 (s ++ rest)) = before_all (c :: s) (read_code L f' d' rest)).
    { intros d1 D1. destruct (IH d1 d' f rest D1 O') as [f' [F1 F2]]; [lia|]. exists f'. split; auto.
      rewrite F2, before_all_app. reflexivity. }
    destruct (N.eqb c (chr "{")); [apply G, D|]. destruct (N.eqb c (chr "}")).
    + destruct d as [|d]; [discriminate|]. apply G, D.
    + destruct (_ || _); [discriminate|]. apply G, D.
Qed.

Definition code_back c d ns (c' : N) d' : Prop := forall p rest f,
  hd_error rest = Some (chr "}") -> (p = 0 \/ c = 32%N) ->
  length (source ns p ++ rest) < f ->
  exists f', length rest < f' /\
    read_code L f d (source ns p ++ rest) = before_all (source ns p) (read_code L f' d' rest).
Definition string_back e acc ps (out : list SpecTemplate.says) : Prop := forall rest f,
  length (flat_map esc acc ++ body ps ++ q e :: rest) < f ->
  read_string L f (q e) (g e) (flat_map esc acc ++ body ps ++ q e :: rest) = Some (map units_of out, rest).

Lemma string_step e acc tail rest f src rest' out :
  read_string L f (q e) (g e) rest' = Some (map units_of out, rest) ->
  lex (g e) MText (flat_map esc acc ++ chr "$" :: tail) = Some (flat_map utf16_units acc, chr "$" :: tail) ->
  (exists r, tail = chr "{" :: r /\ read_code L f 0 r = Some (src, rest')) \/
  (exists x r, tail = x :: r /\ is_letter x = true /\ x <> chr "{" /\ take_name tail = (src, rest')) ->
  read_string L (S f) (q e) (g e) (flat_map esc acc ++ chr "$" :: tail) =
  Some (map units_of (Says acc :: Does src :: out), rest).
Proof.
  intros R X C. rewrite read_string_eq, X. destruct (Hq' e) as [Q1 [Q2 [Q3 Q4]]].
  replace (N.eqb (chr "$") (q e)) with false by (symmetry; apply N.eqb_neq; congruence).
  rewrite N.eqb_refl. destruct C as [[r [-> E]]|[x [r [-> [E1 [E2 E3]]]]]].
  - rewrite N.eqb_refl, E, R. reflexivity.
  - apply N.eqb_neq in E2. rewrite E2, E1, E3, R. reflexivity.
Qed.

Lemma last_last {A} (s : list A) x y z t : last (s ++ x :: t) y = last (x :: t) z.
Proof.
  induction s as [|a s IH]; cbn [app].
  - revert x. induction t as [|b t IHt]; intros x; [reflexivity|]. exact (IHt b).
  - destruct (s ++ x :: t) eqn:E; [destruct s; discriminate|]. rewrite <- IH. reflexivity.
Qed.
Lemma last_blanks p (s : str) c : s <> [] -> last (repeat 32%N p ++ s) 0%N = last s c.
Proof. destruct s as [|x t]; [congruence|]. intros _. apply last_last. Qed.

Theorem read_back :
  (forall c d ns c' d', fine c d ns c' d' -> code_back c d ns c' d') /\
  (forall e acc ps out, says e acc ps out -> string_back e acc ps out).
Proof.
  apply both_ind; unfold code_back, string_back.
  - (* nothing *)
    intros c d p rest f R _ F. unfold source in *. cbn [doc_atoms flat_map on_line] in *.
    apply read_text; auto using depth_after_blanks. right. right. rewrite R. discriminate.
  - (* space *)
    intros c d ns c' d' H IH p rest f R _ F. rewrite source_space in *. apply IH; auto.
  - (* text *)
    intros c d x s d1 ns c' d' E D H IH p rest f R P F. rewrite (source_text x s) in * by auto.
    destruct s as [|x0 s0].
    + cbn in D. injection D as <-. apply IH; auto.
    + set (s := x0 :: s0) in *. assert (NE : s <> []) by discriminate.
      rewrite <- !app_assoc in *. rewrite (app_assoc (repeat 32%N p)) in *.
      destruct (read_text (repeat 32%N p ++ s) d d1 f (source ns 0 ++ rest)) as [f1 [F1 E1]]; auto.
      { rewrite depth_after_app, depth_after_blanks. auto. }
      { right. rewrite (last_blanks p s c NE).
        destruct (opens_after (last s c)) eqn:O; [auto|right].
        eapply first_char; eauto. rewrite R. discriminate. }
      destruct (IH 0 rest f1 R) as [f2 [F2 E2]]; auto.
      exists f2. split; auto. rewrite E1, E2, before_all_app. f_equal. rewrite <- !app_assoc. auto.
  - (* string *)
    intros c d e ps out ns c' d' O Hs IHs H IH p rest f R P F.
    rewrite source_string in *.
    assert (A : (repeat 32%N p ++ q e :: body ps ++ q e :: source ns 0) ++ rest =
                repeat 32%N p ++ q e :: body ps ++ q e :: source ns 0 ++ rest).
    { rewrite <- app_assoc. cbn [app]. rewrite <- app_assoc. auto. }
    rewrite A in *. clear A.
    destruct (read_text (repeat 32%N p) d d f (q e :: body ps ++ q e :: source ns 0 ++ rest))
      as [f1 [F1 E1]]; auto using depth_after_blanks.
    { destruct p as [|p]; [auto|right; left]. destruct P as [P|P]; [discriminate|]. subst c.
      replace (last (repeat 32%N (S p)) 0%N) with 32%N; auto.
      clear. induction p; auto. }
    rewrite E1.
    destruct f1 as [|f1]; [cbn in F1; lia|].
    assert (B : hd_error (body ps) <> Some 34%N).
    { pose proof (body_first _ _ _ _ Hs []) as B. rewrite app_nil_r in B. rewrite B.
      destruct (text_head ps) as [c0|].
      - destruct (Hesc c0) as [x [t [-> [X _]]]]. cbn. congruence.
      - destruct (body ps); discriminate. }
    assert (St : t_strange L (q e :: body ps ++ q e :: source ns 0 ++ rest) = false).
    { apply Hstring; auto. right. destruct (opens_after 34) eqn:O34; [auto|right].
      eapply first_char; eauto. rewrite R. discriminate. }
    destruct (Hq' e) as [Q1 [Q2 [Q3 Q4]]].
    rewrite read_code_eq, St.
    apply N.eqb_neq in Q2, Q3. rewrite Q2, Q3, Hq.
    assert (F2 : length (body ps ++ q e :: source ns 0 ++ rest) < f1) by (cbn [length] in F1; lia).
    pose proof (IHs (source ns 0 ++ rest) f1 F2) as Es. cbn [flat_map app] in Es. rewrite Es.
    destruct (IH 0 rest f1 R) as [f2 [F3 E2]]; auto.
    { rewrite app_length in F2. cbn [length] in F2. lia. }
    exists f2. split; auto. rewrite E2, !before_all_app. f_equal.
    rewrite app_length. cbn [length].
    replace (_ + S _ - _) with (length (body ps) + 1) by lia.
    rewrite firstn_app_2. cbn [firstn]. rewrite <- !app_assoc. cbn [app]. rewrite <- app_assoc. reflexivity.
  - (* end *)
    intros e acc T rest f F. destruct f as [|f]; [lia|]. unfold body. cbn [flat_map on_line repeat app].
    rewrite read_string_eq, Htext by (auto). rewrite N.eqb_refl. reflexivity.
  - (* text *)
    intros e acc s ps out H IH rest f F. rewrite body_text, <- app_assoc in *.
    specialize (IH rest f). rewrite flat_map_app, <- app_assoc in IH. auto.
  - (* code *)
    intros acc ns c ps out T N Hf IHf H IH rest f F. rewrite body_code in * by auto.
    destruct f as [|f]; [lia|]. rewrite <- !app_assoc in *.
    change ($"${" ++ source ns 0 ++ $"}" ++ body ps ++ q true :: rest) with
      (chr "$" :: chr "{" :: source ns 0 ++ chr "}" :: body ps ++ q true :: rest) in *.
    set (tail := source ns 0 ++ _) in *.
    assert (Ft : length tail < f) by (rewrite app_length in F; cbn [length] in F; lia).
    destruct (IHf 0 (chr "}" :: body ps ++ q true :: rest) f) as [f2 [F2 E2]]; auto.
    assert (F3 : length (body ps ++ q true :: rest) < f).
    { unfold tail in Ft. rewrite app_length in Ft. cbn [length] in Ft. lia. }
    apply (string_step true acc (chr "{" :: tail) rest f _ (body ps ++ q true :: rest)).
    + apply (IH rest f). exact F3.
    + apply Htext; auto. right. split; auto. exists tail. left. reflexivity.
    + left. exists tail. split; auto. unfold tail.
      rewrite E2. destruct f2 as [|f2]; [lia|]. rewrite read_code_eq.
      rewrite Hplain; [|repeat split; discriminate|left; exact Hbrace].
      cbn. rewrite app_nil_r. reflexivity.
  - (* one text *)
    intros acc ns s ps out T N Ok H IH rest f F. rewrite (body_single ns s) in * by auto.
    destruct f as [|f]; [lia|]. rewrite <- !app_assoc in *.
    assert (X : lex (g true) MText (flat_map esc acc ++ concat (l_string_eval_literal ops s) ++ body ps ++ q true :: rest) =
                Some (flat_map utf16_units acc, concat (l_string_eval_literal ops s) ++ body ps ++ q true :: rest)).
    { apply Htext; auto. right. split; auto. eexists. right. exists s, (text_head ps). auto. }
    set (after := body ps ++ q true :: rest) in *.
    destruct (Hsingle _ _ Ok) as [[E D]|[E [[c [r [-> [C R]]]] Nx]]]; rewrite E in *.
    + rewrite <- !app_assoc in *.
      change ($"${" ++ s ++ $"}" ++ after) with (chr "$" :: chr "{" :: s ++ chr "}" :: after) in *.
      rewrite app_length in F. cbn [length] in F.
      assert (F3 : length after < f) by (rewrite app_length in F; cbn [length] in F; lia).
      apply (string_step true acc (chr "{" :: s ++ chr "}" :: after) rest f s after); auto.
      * apply (IH rest f). exact F3.
      * left. eexists. split; [reflexivity|].
        destruct (read_text s 0 0 f (chr "}" :: after) D) as [f2 [F2 E2]]; [right; right; discriminate|lia|].
        rewrite E2. destruct f2 as [|f2]; [lia|]. rewrite read_code_eq.
        rewrite Hplain; [|repeat split; discriminate|left; exact Hbrace]. cbn. rewrite app_nil_r. reflexivity.
    + change (($"$" ++ c :: r) ++ after) with (chr "$" :: (c :: r) ++ after) in *.
      rewrite app_length in F. cbn [length] in F.
      assert (F3 : length after < f) by (cbn [app length] in F; rewrite app_length in F; lia).
      apply (string_step true acc ((c :: r) ++ after) rest f (c :: r) after); auto.
      * apply (IH rest f). exact F3.
      * right. exists c, (r ++ after). repeat split; auto.
        -- intros ->. discriminate C.
        -- apply take_name_app.
           ++ cbn [forallb]. unfold name_part at 1. rewrite C, R. auto.
           ++ unfold after. rewrite (body_first _ _ _ _ H). destruct (text_head ps) as [c0|].
              ** destruct (Hesc c0) as [x [t [-> [X1 [X2|X2]]]]]; cbn [hd_error]; subst x; auto.
              ** destruct (body ps); [|reflexivity]. cbn [hd_error]. apply Hq'.
Qed.

(** ** In a document *)
Context (Hvalid : forall e s, text_ok e s -> valid s).
Lemma texts_inline ss : forallb inline (texts ss) = true.
Proof. induction ss; auto. Qed.
Lemma inline_plain x s : inline_text ops x = Some s ->
  plain x = true /\ forallb inline (atoms_of ops x) = true.
Proof. destruct x; cbn; intros E; inversion E; auto. split; auto. apply texts_inline. Qed.
Lemma inline_ok :
  (forall c d ns c' d', fine c d ns c' d' ->
     doc_ok ns = true /\ forallb inline (doc_atoms ops cfg ns) = true) /\
  (forall e acc ps out, says e acc ps out ->
     forallb part_ok ps = true /\ forallb inline (flat_map (part_atoms ops cfg) ps) = true).
Proof.
  apply both_ind.
  - auto.
  - intros c d ns c' d' _ [H1 H2]. split; auto.
  - intros c d x s d1 ns c' d' E _ _ [H1 H2]. destruct (inline_plain x s E) as [P1 P2].
    unfold doc_ok, doc_atoms in *. cbn [forallb flat_map node_ok node_atoms].
    rewrite forallb_app, P1, P2, H1, H2. auto.
  - intros c d e ps out ns c' d' _ _ [I1 I2] _ [H1 H2].
    unfold doc_ok, doc_atoms in *. cbn [forallb flat_map].
    rewrite node_ok_string, node_atoms_string, !forallb_app, !texts_inline, I1, I2, H1, H2. auto.
  - auto.
  - intros e acc s ps out _ [H1 H2]. cbn [forallb flat_map part_ok part_atoms plain string_item].
    rewrite forallb_app, texts_inline, H1, H2. auto.
  - intros acc ns c ps out _ N _ [I1 I2] _ [H1 H2]. cbn [forallb flat_map].
    rewrite part_ok_eval, part_atoms_eval, N, !forallb_app, !texts_inline.
    unfold doc_ok, doc_atoms in *. rewrite I1, I2, H1, H2. auto.
  - intros acc ns s ps out _ N _ _ [H1 H2]. cbn [forallb flat_map].
    rewrite part_ok_eval, part_atoms_eval, N, forallb_app, texts_inline, H1, H2.
    unfold single_literal in N. split; auto. rewrite andb_true_r.
    destruct ns as [|[x|e ps'] ns]; [discriminate| |].
    + destruct x; try discriminate. destruct ns as [|[x|e ps'] ns]; auto; [discriminate|].
      cbn in N. discriminate.
    + cbn in N. discriminate.
Qed.
Lemma said_ok e acc ps out : says e acc ps out ->
  Forall2 means (map units_of out) out.
Proof.
  induction 1; cbn [map]; repeat constructor; auto; apply utf16_ok; eauto.
Qed.
Lemma body_empty e acc ps out : says e acc ps out -> body ps = [] -> out = [Says acc].
Proof.
  induction 1 as [e acc T|e acc s ps out H IH|acc ns c ps out T N F H IH|acc ns s ps out T N F H IH]; intros B.
  - auto.
  - rewrite body_text in B. apply app_eq_nil in B as [B1 B2].
    destruct (content s) as [|c s'] eqn:E; [rewrite IH, app_nil_r; auto|].
    cbn in B1. destruct (Hesc c) as [x [r [X _]]]. rewrite X in B1. discriminate.
  - rewrite body_code in B by auto. discriminate.
  - rewrite (body_single ns s) in B by auto. destruct (single_first _ _ F) as [t E]. rewrite E in B. discriminate.
Qed.

Theorem string_in_document e ps out : says e [] ps out -> exists src,
  (forall rest, out <> [Says []] \/ opens_after 34 = true \/ hd_error rest <> Some 34%N ->
     exists ans, read L (src ++ rest) = Some (ans, rest) /\ Forall2 means ans out) /\
  (forall before after, doc_ok before = true -> doc_ok after = true -> exists sep tail,
     Forall (fun c => In c (c_newline cfg) \/ c = 32%N \/ c = 9%N) sep /\
     outcome (format_items ops cfg string_writer (doc_items (before ++ NString e ps :: after)) (formatter_new [])) =
     (text (c_newline cfg) (layout (c_indentation cfg) (doc_atoms ops cfg before)) ++ sep ++ src ++ tail, true)) /\
  outcome (format_items ops cfg string_writer (doc_items [NString e ps]) (formatter_new [])) = (src, true).
Proof.
  intros H. exists (q e :: body ps ++ [q e]). split; [|split].
  - intros rest O. exists (map units_of out). split; [|eapply said_ok; eauto].
    assert (A : (q e :: body ps ++ [q e]) ++ rest = q e :: body ps ++ q e :: rest)
      by (cbn [app]; rewrite <- app_assoc; auto).
    rewrite A. unfold read. rewrite Hstring, Hq.
    + rewrite <- (app_nil_l (body ps ++ _)). apply (proj2 read_back e [] ps out H rest). cbn [flat_map app length]. lia.
    + pose proof (body_first _ _ _ _ H []) as B. rewrite app_nil_r in B. rewrite B.
      destruct (text_head ps) as [c0|].
      * destruct (Hesc c0) as [x [t [-> [X _]]]]. cbn. congruence.
      * destruct (body ps); discriminate.
    + destruct O as [O|O]; auto. left. intros B. apply O. eapply body_empty; eauto.
  - intros before after B A. destruct (proj2 inline_ok _ _ _ _ H) as [P1 P2].
    rewrite doc_string.
    2:{ unfold doc_ok in *. rewrite forallb_app. cbn [forallb]. rewrite node_ok_string, B, A, P1. auto. }
    unfold doc_atoms. rewrite flat_map_app. cbn [flat_map]. rewrite node_atoms_string.
    set (pre := flat_map (node_atoms ops cfg) before). set (post := flat_map (node_atoms ops cfg) after).
    set (mid := flat_map (part_atoms ops cfg) ps) in *. rewrite Hopen'.
    assert (E : pre ++ (texts [[q e]] ++ mid ++ texts (l_close_quote ops e)) ++ post =
                pre ++ AText [q e] :: (mid ++ texts (l_close_quote ops e) ++ post)).
    { rewrite <- !app_assoc. reflexivity. }
    rewrite E, layout_at by reflexivity. rewrite !text_app. cbn [a_text map].
    destruct (layout_on_line (c_indentation cfg) (c_newline cfg) mid (net pre) []
                (l_close_quote ops e) post) as [lvl' [gap' T]]; auto.
    { rewrite Hclose. discriminate. }
    rewrite T.
    exists (text (c_newline cfg) (separator (c_indentation cfg) (negb (existsb visible pre))
             (net pre) (after_last visible pre))), (text (c_newline cfg) (layout_from (c_indentation cfg) false lvl' gap' post)). split.
    + apply separator_blank.
    + f_equal. f_equal. f_equal. change (count_spaces []) with 0.
      rewrite <- (app_nil_r (texts (l_close_quote ops e))), on_line_upto by (rewrite Hclose; discriminate).
      rewrite Hclose. cbn [text flat_map sym_text on_line repeat app]. rewrite <- ?app_assoc. reflexivity.
  - destruct (proj2 inline_ok _ _ _ _ H) as [P1 P2].
    rewrite doc_string by (unfold doc_ok; cbn [forallb]; rewrite node_ok_string, P1; auto).
    unfold doc_atoms. cbn [flat_map]. rewrite node_atoms_string, app_nil_r, Hopen'.
    set (mid := flat_map (part_atoms ops cfg) ps) in *.
    change (texts [[q e]] ++ mid ++ texts (l_close_quote ops e)) with
      ([] ++ AText [q e] :: mid ++ texts (l_close_quote ops e)).
    rewrite layout_at by reflexivity. rewrite !text_app. cbn [a_text map].
    rewrite <- (app_nil_r (texts (l_close_quote ops e))).
    destruct (layout_on_line (c_indentation cfg) (c_newline cfg) mid (net []) []
                (l_close_quote ops e) []) as [lvl' [gap' T]]; auto.
    { rewrite Hclose. discriminate. }
    rewrite T. change (count_spaces []) with 0.
    rewrite <- (app_nil_r (texts (l_close_quote ops e))), on_line_upto by (rewrite Hclose; discriminate).
    rewrite Hclose. unfold separator, pad. cbn [layout layout_from existsb negb net Z.max Z.compare Z.to_nat count_spaces after_last filter length].
    f_equal. destruct (c_indentation cfg); cbn [text flat_map sym_text on_line repeat app blanks Nat.mul]; rewrite app_nil_r; reflexivity.
Qed.
End Back.
