(** * Control flow and strings in quotes (C56 - C60).

    Vocabulary: [SpecMacro.v] (meaning of quotes), [SpecQuote.v] (running quotes,
    source of strings, documents). *)
From Verif Require Import Str Tokens SpecTokens TokensRun TokensFacts Values ValuesFacts Fmt SpecFmt RenderFacts WriterFacts OutputFacts
  Macro SpecMacro SpecQuote MacroFacts MacroSem MacroTokens MacroLines MacroControl MacroStrings PropsMacro.

(** ** C56: loops *)

(** A loop with a separator: the bodies in turn, the separator between any two. *)
Theorem C56_join : forall LI E c it paren js body,
  (@accepted LI E [QLoop c it (Some (paren, js)) body] <-> accepted (in_parens (Some paren) js) /\ accepted body) /\
  (@accepted LI E [QLoop c it (Some (paren, js)) body] -> forall e t bs e1, it e = (bs, e1) ->
   runs [QLoop c it (Some (paren, js)) body] (e, t) =
   in_turn (intersperse (runs (in_parens (Some paren) js)) (map (fun b st => runs body (b (fst st), snd st)) bs)) (e1, t)).
Proof.
  intros LI E c it paren js body. unfold accepted. pose proof (code_loop c it (Some (paren, js)) body) as C. cbv beta iota in C.
  destruct (quote_code (in_parens (Some paren) js)) as [[rj cj]|] eqn:QJ; cbn [bind] in C; [|split; [split; [congruence|tauto]|congruence]].
  destruct (quote_code body) as [[rb cb]|] eqn:QB; cbn [bind fst snd] in C; [|split; [split; [congruence|tauto]|congruence]].
  split; [split; [split; discriminate|congruence]|]. intros _ e t bs e1 I. rewrite (runs_code _ _ _ C). cbn [execs fold_state exec fst snd]. rewrite I, join_turns.
  apply in_turn_ext, forall2_intersperse; [intros st; symmetry; apply (runs_code _ _ _ QJ)|].
  clear I. induction bs; constructor; auto. intros st; symmetry; apply (runs_code _ _ _ QB).
Qed.
Print Assumptions C56_join.
(** Without: the bodies in turn. *)
Theorem C56_loop : forall LI E c it body,
  (@accepted LI E [QLoop c it None body] <-> accepted body) /\
  (@accepted LI E [QLoop c it None body] -> forall e t bs e1, it e = (bs, e1) ->
   runs [QLoop c it None body] (e, t) = in_turn (map (fun b st => runs body (b (fst st), snd st)) bs) (e1, t)).
Proof.
  intros LI E c it body. unfold accepted. pose proof (code_loop c it None body) as C. cbv beta iota in C. cbn [bind] in C.
  destruct (quote_code body) as [[rb cb]|] eqn:QB; cbn [bind fst snd] in C; [|split; [split; congruence|congruence]].
  split; [split; [discriminate|congruence]|]. intros _ e t bs e1 I. rewrite (runs_code _ _ _ C). cbn [execs fold_state exec fst snd]. rewrite I, loop_turns.
  apply in_turn_ext. clear I. induction bs; constructor; auto. intros st; symmetry; apply (runs_code _ _ _ QB).
Qed.
Print Assumptions C56_loop.
(** [intersperse] is what it should be: n elements, n - 1 separators, in turn. *)
Theorem C56_count : forall A (sep : A) l,
  length (intersperse sep l) = length l + (length l - 1) /\
  (forall i, nth_error (intersperse sep l) (2 * i) = nth_error l i) /\
  (forall i, S i < length l -> nth_error (intersperse sep l) (2 * i + 1) = Some sep) /\
  (forall i, length l <= S i -> nth_error (intersperse sep l) (2 * i + 1) = None).
Proof.
  intros A sep l. induction l as [|x l (IH1 & IH2 & IH3 & IH4)].
  - repeat split; intros; cbn [length] in *; try lia; cbn [intersperse]; rewrite ?nth_error_nil; auto; destruct i; auto; apply nth_error_None; cbn; lia.
  - assert (IL : intersperse sep (x :: l) = x :: match l with [] => [] | _ => sep :: intersperse sep l end) by reflexivity. rewrite IL. clear IL.
    destruct l as [|y l].
    + split; [reflexivity|]. split; [|split]; intros i; cbn [length]; try lia.
      * destruct i; [reflexivity|]. transitivity (@None A); [|symmetry]; apply nth_error_None; cbn; lia.
      * intros _. apply nth_error_None. cbn. lia.
    + split; [cbn [length] in *; rewrite IH1; lia|]. split; [|split].
      * intros [|i]; [reflexivity|]. replace (2 * S i) with (S (S (2 * i))) by lia. cbn [nth_error]. apply IH2.
      * intros [|i] H; [reflexivity|]. replace (2 * S i + 1) with (S (S (2 * i + 1))) by lia. cbn [nth_error]. apply IH3. cbn in *. lia.
      * intros [|i] H; [cbn in H; lia|]. replace (2 * S i + 1) with (S (S (2 * i + 1))) by lia. cbn [nth_error]. apply IH4. cbn in *. lia.
Qed.
Print Assumptions C56_count.
(** Finding out who is there: elements 1, 2, 3, separated by ", ". *)
Definition demo_loop (xs : list nat) : list (quoted_item nat nat) :=
  [QLoop (word 1 0 $"$(for x in xs join (, ) => $x)") (fun e => (map (fun x _ => x) xs, e))
     (Some (mk_cursor (mk_pos 1 19) (mk_pos 1 23), [tok 1 20 $","]))
     [QEval (word 1 27 $"$x") (fun e => (VInt (Z.of_nat e), e))]].
Example C56_example : accepted (demo_loop [1; 2; 3]) /\
  exists t, runs (demo_loop [1; 2; 3]) (7, new) = (3, t) /\
  items t = [Literal (Box $"1"); Literal (Static $","); Space; Literal (Box $"2"); Literal (Static $","); Space; Literal (Box $"3")].
Proof. split; [discriminate|]. eexists. split; vm_compute; reflexivity. Qed.

(** ** C57: control flow *)

(** A conditional quotes the selected branch, an absent one quotes nothing. *)
Theorem C57_if : forall LI E c cond a b,
  (@accepted LI E [QIf c cond a b] <-> accepted a /\ match b with Some b => accepted b | None => True end) /\
  (@accepted LI E [QIf c cond a b] -> forall e t yes e1, cond e = (yes, e1) ->
   runs [QIf c cond a b] (e, t) =
   if yes then runs a (e1, t) else match b with Some b => runs b (e1, t) | None => (e1, t) end).
Proof.
  intros LI E c cond a b. unfold accepted. pose proof (code_if c cond a b) as C.
  destruct (quote_code a) as [[ra ca]|] eqn:QA; cbn [bind fst snd] in C; [|split; [split; [congruence|tauto]|congruence]].
  destruct b as [b|]; cbn [bind fst snd] in C.
  - destruct (quote_code b) as [[rb cb]|] eqn:QB; cbn [bind fst snd option_map] in C; [|split; [split; [congruence|tauto]|congruence]].
    split; [split; [split; discriminate|congruence]|]. intros _ e t yes e1 I. rewrite (runs_code _ _ _ C). cbn [execs fold_state exec fst snd]. rewrite I.
    destruct yes; symmetry; [apply (runs_code _ _ _ QA)|apply (runs_code _ _ _ QB)].
  - split; [split; [split; [discriminate|exact I]|congruence]|]. intros _ e t yes e1 I. rewrite (runs_code _ _ _ C). cbn [execs fold_state exec fst snd option_map]. rewrite I.
    destruct yes; [symmetry; apply (runs_code _ _ _ QA)|reflexivity].
Qed.
Print Assumptions C57_if.

(** A match quotes the selected arm. *)
Theorem C57_match : forall LI E c sel arms,
  (@accepted LI E [QMatch c sel arms] <-> Forall (fun arm => accepted (in_parens (fst arm) (snd arm))) arms) /\
  (@accepted LI E [QMatch c sel arms] -> forall e t i e1 paren qs, sel e = (i, e1) -> nth_error arms i = Some (paren, qs) ->
   runs [QMatch c sel arms] (e, t) = runs (in_parens paren qs) (e1, t)).
Proof.
  intros LI E c sel arms. unfold accepted. pose proof (code_match c sel arms) as C.
  assert (A : match arm_codes arms with
    | Some rs => Forall2 (fun arm r => quote_code (in_parens (fst arm) (snd arm)) = Some r) arms rs
    | None => Exists (fun arm => quote_code (in_parens (fst arm) (snd arm)) = None) arms
    end).
  { clear. induction arms as [|[paren qs] arms IH]; [constructor|]. cbn [arm_codes]. destruct (quote_code (in_parens paren qs)) eqn:Q; cbn [bind]; [|constructor; exact Q].
    destruct (arm_codes arms); cbn [bind]; [constructor; auto|apply Exists_cons_tl; auto]. }
  destruct (arm_codes arms) as [rs|]; cbn [bind] in C.
  - split.
    + split; [intros _|congruence]. clear -A. induction A; constructor; auto. congruence.
    + intros _ e t i e1 paren qs I NT. rewrite (runs_code _ _ _ C). cbn [execs fold_state exec fst snd]. rewrite I. clear C I.
      revert i NT. induction A as [|arm r arms rs H _ IH]; intros [|i] NT; try discriminate; cbn [map nth_error] in *.
      * injection NT as ->. destruct r as [r code]. cbn [fst snd] in *. symmetry. apply (runs_code _ _ _ H).
      * apply IH, NT.
  - split; [split; [congruence|]|congruence]. intros F. apply Exists_exists in A as (arm & I & N). rewrite Forall_forall in F. specialize (F _ I). contradiction.
Qed.
Print Assumptions C57_match.

(** Bindings and blocks that have no name for the stream quote nothing; a scope
    appends what its code appends; an expression appends its value; the rest. *)
Theorem C57_single : forall LI E c (e : E) (t : tokens LI),
  (forall f, runs [QLet c f] (e, t) = (f e, t)) /\
  (forall f, runs [QEffect c f] (e, t) = (f e, t)) /\
  (forall code cs e1, code e = (cs, e1) -> runs [QScope c code] (e, t) = (e1, run cs t)) /\
  (forall v x e1, v e = (x, e1) -> runs [QEval c v] (e, t) = (e1, append x t)) /\
  (forall s, s <> [] -> runs [QText c s] (e, t) = (e, append (VItemStr (Static s)) t)) /\
  (forall s, s <> [] -> runs [QLiteral c s] (e, t) = (e, append (VItemStr (Static s)) t)) /\
  runs [QDollar c] (e, t) = (e, append (VItemStr (Static $"$")) t) /\
  (forall s, runs [QQuoted c s] (e, t) =
     (e, append (VItem CloseQuote) (append (VItemStr (Static s)) (append (VItem (OpenQuote false)) t)))) /\
  runs [QControl c KSpace] (e, t) = (e, space t) /\
  runs [QControl c KPush] (e, t) = (e, push t) /\
  runs [QControl c KLine] (e, t) = (e, line t).
Proof.
  intros LI E c e t.
  assert (G : forall x (g : list (stmt LI E)), (forall s, encode x s = bind (step c s) (fun s => Some (emit g (flush s)))) -> runs [x] (e, t) = execs g (e, t)).
  { intros x g H. exact (runs_code _ _ _ (code_single0 x c g H) (e, t)). }
  repeat split; intros; try (erewrite G by (intros; reflexivity); cbn [execs fold_state exec fst snd]; try rewrite H; reflexivity).
  - destruct s; [congruence|reflexivity].
  - destruct s; [congruence|reflexivity].
Qed.
Print Assumptions C57_single.

(** Nested to any depth: quoting appends the items of the reference semantics, in
    one pass over the environment. *)
Theorem C57_mean : forall LI E (qs : list (quoted_item LI E)), accepted qs -> forall e t,
  quote_in qs e t = Some (snd (quote_mean qs e), extend (fst (quote_mean qs e)) t).
Proof.
  intros LI E qs A e t. unfold accepted in A. destruct (quote_code qs) as [[r code]|] eqn:Q; [|congruence].
  unfold quote_in. rewrite Q. cbn [option_map snd]. f_equal. exact (quote_supplies _ _ _ Q e t).
Qed.
Print Assumptions C57_mean.

(** <<
    $(if e = 0 => a b else $(match e { 1 => c, _ => (d ) }))
    >> *)
Definition demo_if : list (quoted_item nat nat) :=
  [QIf (mk_cursor (mk_pos 1 0) (mk_pos 1 60)) (fun e => (e =? 0, S e)) [tok 1 15 $"a"; tok 1 17 $"b"]
     (Some [QMatch (mk_cursor (mk_pos 1 24) (mk_pos 1 59)) (fun e => (if e =? 2 then 0 else 1, e))
              [(None, [tok 1 44 $"c"]); (Some (mk_cursor (mk_pos 1 52) (mk_pos 1 56)), [tok 1 53 $"d"])]])].
Example C57_example : accepted demo_if /\
  map (fun e => option_map (fun r => (fst r, items (snd r))) (quote_in demo_if e new)) [0; 1; 2] =
  [Some (1, [Literal (Static $"a"); Space; Literal (Static $"b")]); Some (2, [Literal (Static $"c")]); Some (3, [Literal (Static $"d"); Space])].
Proof. split; [discriminate|vm_compute; reflexivity]. Qed.

(** ** C58: interpolated strings *)

(** Accepted if and only if all is on one line (and what is interpolated is
    accepted). *)
Theorem C58_accepted : forall LI E c paren ps,
  @accepted LI E [QString c paren ps] <-> one_line (after_open paren) ps (before_close paren) /\ evals_accepted ps.
Proof.
  intros LI E c paren ps. unfold accepted. rewrite string_code. pose proof (sbody_some ps (before_close paren) (after_open paren)) as S.
  destruct (sbody _ ps _) as [[ks rq]|]; cbn [bind]; [|tauto]. destruct S as (A & B & _). split; [auto|discriminate].
Qed.
Print Assumptions C58_accepted.

(** The code of a string: the source between the parentheses as it is, but for the
    forms with a dollar sign. *)
Theorem C58_source_partial : forall LI E c paren ps src,
  @accepted LI E [QString c paren ps] ->
  spelled src (p_col (after_open paren)) ps (p_col (before_close paren)) ->
  quote_code [QString c paren ps] =
  Some (existsb is_eval ps,
        SItem (OpenQuote (existsb is_eval ps)) ::
        coalesce [] (source_pieces src (p_col (after_open paren)) ps (p_col (before_close paren))) ++
        [SItem CloseQuote]).
Proof.
  intros LI E c paren ps src A SP. unfold accepted in A. rewrite string_code in *. destruct (sbody _ ps _) as [[ks rq]|] eqn:SB; cbn [bind] in *; [|congruence].
  rewrite (source_body src ps (before_close paren) (after_open paren) ks rq SP SB). reflexivity.
Qed.
Print Assumptions C58_source_partial.

(** Without dollar signs: exactly the source. *)
Theorem C58_constant_partial : forall LI E c paren ps src,
  @accepted LI E [QString c paren ps] ->
  spelled src (p_col (after_open paren)) ps (p_col (before_close paren)) ->
  Forall (fun p => match p with PText _ _ => True | _ => False end) ps ->
  quote_code [QString c paren ps] =
  Some (false,
        SItem (OpenQuote false) ::
        text_code (slice src (p_col (after_open paren)) (p_col (before_close paren))) ++
        [SItem CloseQuote]).
Proof.
  intros LI E c paren ps src A SP F. rewrite (C58_source_partial _ _ _ _ _ src A SP).
  assert (EV : existsb is_eval ps = false) by (clear -F; induction F as [|[] ps H _ IH]; try contradiction; auto). rewrite EV. do 4 f_equal.
  assert (LE : forall ps a b, @spelled LI E src a ps b -> a <= b).
  { clear. induction ps as [|x ps IH]; cbn [spelled]; intros a b H; [exact (proj1 H)|]. destruct H as ((H1 & _) & H2 & _ & H3). apply IH in H3. lia. }
  assert (G : forall ps, Forall (fun p => match p with PText _ _ => True | _ => False end) ps -> forall a b before, @spelled LI E src a ps b ->
    coalesce before (@source_pieces LI E src a ps b) = text_code (before ++ slice src a b)).
  { clear -LE. induction 1 as [|x ps H _ IH]; intros a b before SP; [reflexivity|]. destruct x; try contradiction. pose proof (LE _ _ _ SP) as L0.
    cbn [spelled string_cursor] in SP. destruct SP as ((H1 & _) & H2 & _ & H3). pose proof (LE _ _ _ H3) as L1.
    cbn [source_pieces string_cursor app coalesce]. rewrite IH by exact H3. rewrite <- app_assoc, slice_app by lia. reflexivity. }
  apply (G ps F _ _ [] SP).
Qed.
Print Assumptions C58_constant_partial.

(** [$[str](  Hello,  $name! )] *)
Definition demo_src : str := $"$[str](  Hello,  $name! )".
Definition demo_string : list (string_item nat nat) :=
  [PText (word 1 9 $"Hello") $"Hello"; PText (word 1 14 $",") $","; PIdent (mk_cursor (mk_pos 1 17) (mk_pos 1 22)) $"name"; PText (word 1 22 $"!") $"!"].
Definition demo_paren : cursor := mk_cursor (mk_pos 1 6) (mk_pos 1 25).
Example C58_hypotheses : accepted [QString (mk_cursor (mk_pos 1 0) (mk_pos 1 25)) demo_paren demo_string] /\
  spelled demo_src (p_col (after_open demo_paren)) demo_string (p_col (before_close demo_paren)).
Proof. split; [vm_compute; discriminate|]. cbn. unfold blank_source. repeat split; try lia; vm_compute; reflexivity. Qed.
Example C58_example :
  coalesce [] (source_pieces demo_src (p_col (after_open demo_paren)) demo_string (p_col (before_close demo_paren))) =
  [SStatic $"  Hello,  "; SItem OpenEval; SItem (Literal (Static $"name")); SItem CloseEval; SStatic $"! "].
Proof. vm_compute. reflexivity. Qed.

(** Finding: what is between the tokens is taken for blanks.  A tab (or a comment)
    becomes spaces. *)
Theorem C58_tab_refuted :
  let src := $"$[str](a" ++ [9%N] ++ $"b)" in
  let ps := [@PText nat nat (word 1 7 $"a") $"a"; PText (word 1 9 $"b") $"b"] in
  slice src 7 8 = $"a" /\ slice src 9 10 = $"b" /\ slice src 7 10 = $"a" ++ [9%N] ++ $"b" /\
  quote_code [QString (mk_cursor (mk_pos 1 0) (mk_pos 1 11)) (mk_cursor (mk_pos 1 6) (mk_pos 1 11)) ps] =
  Some (false, [SItem (OpenQuote false); SStatic $"a b"; SItem CloseQuote]).
Proof. repeat split; vm_compute; reflexivity. Qed.
Print Assumptions C58_tab_refuted.

(** ** C59: quotes generate well-formed documents *)

(** Quotes are balanced, and a string is marked as evaluating if and only if it has
    an interpolation, provided so are the values. *)
Theorem C59_documents : forall LI E (qs : list (quoted_item LI E)) e t e' t',
  Forall (every_value document_value document_scope constant_value) qs ->
  quote_in qs e t = Some (e', t') -> documents (items t) -> documents (items t').
Proof. exact @quote_documents. Qed.
Print Assumptions C59_documents.
(** Formatting them does not fail. *)
Theorem C59_formats : forall LI E (qs : list (quoted_item LI E)) e t e' t',
  Forall (every_value document_value document_scope constant_value) qs ->
  quote_in qs e t = Some (e', t') -> documents (items t) ->
  forall (ops : lang_ops LI) cfg W (wr : writer W) st, writes_ok wr ->
  snd (format_items ops cfg wr (items t') st) = true.
Proof.
  intros LI E qs e t e' t' V Q D ops cfg W wr st WO. rewrite format_accepts by exact WO.
  destruct (quote_documents qs e t e' t' V Q D) as (ns & OK & _ & P). rewrite (accepts_pieces _ _ [] P).
  exact (doc_accepts (default_ops (fun _ => [])) (mk_config ITab []) ns OK).
Qed.
Print Assumptions C59_formats.
(** The quote is marked as requiring a language with interpolation if and only if
    there is one. *)
Theorem C59_requires : forall LI E (qs : list (quoted_item LI E)) r code,
  quote_code qs = Some (r, code) -> r = existsb interpolates qs.
Proof. exact @quote_req. Qed.
Print Assumptions C59_requires.

Definition demo_nested : list (quoted_item nat nat) :=
  [QString (mk_cursor (mk_pos 1 0) (mk_pos 1 25)) demo_paren demo_string;
   QString (mk_cursor (mk_pos 2 0) (mk_pos 2 40)) (mk_cursor (mk_pos 2 6) (mk_pos 2 40))
     [PEval (mk_cursor (mk_pos 2 7) (mk_pos 2 30))
        [tok 2 9 $"f"; QGroup (mk_cursor (mk_pos 2 10) (mk_pos 2 29)) Parenthesis
           [QString (mk_cursor (mk_pos 2 11) (mk_pos 2 28)) (mk_cursor (mk_pos 2 17) (mk_pos 2 28)) [PIdent (mk_cursor (mk_pos 2 20) (mk_pos 2 22)) $"x"]]]];
   QEval (word 3 0 $"$x") (fun e => (VQuoted (VStr $"x"), e))].
Example C59_example :
  Forall (every_value document_value document_scope constant_value) demo_nested /\
  (exists t, quote_in demo_nested 0 new = Some (0, t)) /\ existsb interpolates demo_nested = true.
Proof.
  split; [|split; [eexists; vm_compute; reflexivity|reflexivity]].
  repeat constructor. cbn [every_value]. intros e. exists [NString false [PItem (Literal (Box $"x"))]]. repeat split. repeat constructor.
Qed.

(** ** C60: quoting into a stream *)

Section Append.
Context {LI E : Type}.
Notation quoted := (quoted_item LI E).
Definition mean_leaf (t : cursor * leaf LI E) (st : mstate LI E) : mstate LI E :=
  match snd t with LText s => put (KText s) (enter_chunks (fst t) st) | LOther x => mean x st end.
Lemma mean_tokens : (forall (x : quoted) st, mean x st = fold_left (fun st t => mean_leaf t st) (tokens_of x) st) /\ (forall x : string_item LI E, True).
Proof.
  apply quoted_string_ind; try (intros; exact I); try (intros; reflexivity).
  intros c d qs IH st. cbn [tokens_of fold_left]. rewrite fold_left_app. cbn [fold_left mean]. unfold mean_leaf at 1 3. cbn [fst snd]. f_equal. f_equal.
  set (s0 := put (KText (opener d)) (enter_chunks (opener_at c) st)). clearbody s0. revert s0.
  induction IH as [|x qs H _ IH]; intros s0; [reflexivity|]. cbn [fold_left flat_map]. rewrite fold_left_app, <- H. apply IH.
Qed.
Lemma fold_mean_tokens qs : forall st, fold_left (fun st (x : quoted) => mean x st) qs st = fold_left (fun st t => mean_leaf t st) (all_tokens qs) st.
Proof. induction qs as [|x qs IH]; intros st; [reflexivity|]. rewrite all_cons, fold_left_app. cbn [fold_left]. rewrite (proj1 mean_tokens). apply IH. Qed.
Lemma enter_appends c (st : mstate LI E) : exists cs, m_chunks (enter_chunks c st) = m_chunks st ++ cs.
Proof. unfold enter_chunks. destruct (enter c (m_place st)) as [[p w]|]; [eexists; reflexivity|exists []; rewrite app_nil_r; reflexivity]. Qed.
Lemma leaf_appends t (st : mstate LI E) : tok_ok t -> exists cs, m_chunks (mean_leaf t st) = m_chunks st ++ cs.
Proof.
  destruct t as [c [s|x]]; intros O; unfold mean_leaf; cbn [fst snd].
  - destruct (enter_appends c st) as [cs H]. cbn [put m_chunks]. rewrite H, <- app_assoc. eauto.
  - destruct O as [O _]. cbn [snd] in O. assert (G : forall c k (e : E) w, exists cs, m_chunks (mk_mstate w (m_chunks (enter_chunks c st) ++ k) e) = m_chunks st ++ cs).
    { intros c0 k e w. destruct (enter_appends c0 st) as [cs H]. cbn [m_chunks]. rewrite H, <- app_assoc. eauto. }
    destruct x; try discriminate O; cbn [mean]; unfold put, put_items; try apply G.
    + destruct (fold_left _ ps _) as [[? ?] ?]. apply G.
    + destruct (v _). apply G.
    + destruct (code _). apply G.
    + destruct (enter_appends c0 st) as [cs H]. cbn [m_chunks]. eauto.
    + destruct (it _). apply G.
    + destruct (cond _). apply G.
    + destruct (sel _). apply G.
Qed.
Lemma leaves_append ts : Forall tok_ok ts -> forall st : mstate LI E, exists cs, m_chunks (fold_left (fun st t => mean_leaf t st) ts st) = m_chunks st ++ cs.
Proof.
  induction 1 as [|t ts O _ IH]; intros st; [exists []; rewrite app_nil_r; reflexivity|]. cbn [fold_left]. destruct (IH (mean_leaf t st)) as [c2 H2]. destruct (leaf_appends t st O) as [c1 H1].
  rewrite H2, H1, <- app_assoc. eauto.
Qed.
Lemma join_first (cs : list (chunk LI)) : forall b, b <> [] -> exists s r, join_texts b cs = Literal (Static s) :: r.
Proof.
  induction cs as [|[s|its] cs IH]; intros b N; cbn [join_texts].
  - destruct b; [congruence|]. eexists _, _. reflexivity.
  - apply IH. destruct b; [congruence|discriminate].
  - destruct b; [congruence|]. eexists _, _. reflexivity.
Qed.
Lemma mean_first (qs : list quoted) (e : E) : starts_visible qs -> exists x r, fst (quote_mean qs e) = x :: r /\ is_white x = false.
Proof.
  intros V. unfold quote_mean, block_mean, block_mean_with. rewrite fold_mean_tokens. pose proof (all_tokens_ok qs) as OK. unfold starts_visible in V.
  destruct (all_tokens qs) as [|[c l] ts] eqn:AT; [contradiction|]. cbn [map snd] in V. inversion OK; subst. cbn [fold_left start_of fst].
  destruct (leaves_append ts H2 (mean_leaf (c, l) (mk_mstate None [] e))) as [cs H]. rewrite H.
  destruct l as [s|x].
  - cbn [mean_leaf fst snd put enter_chunks enter m_place m_chunks adjacent app join_texts]. destruct (join_first cs s V) as (s' & r & ->). eexists _, _. split; reflexivity.
  - destruct x; try contradiction.
    + eexists _, _. split; reflexivity.
    + unfold mean_leaf. cbn [fst snd]. rewrite mean_string. cbv zeta. destruct (fold_left _ ps _) as [[a k] e2]. eexists _, _. split; reflexivity.
Qed.

Lemma add_erase (x : item LI) t : add_item (HistoryFacts.erase x) t = add_item x t.
Proof. destruct x; reflexivity. Qed.
Lemma extend_erase (xs : list (item LI)) : forall t, extend (map HistoryFacts.erase xs) t = extend xs t.
Proof. induction xs as [|x xs IH]; intros t; [reflexivity|]. unfold extend in *. cbn [map fold_left]. rewrite IH, add_erase. reflexivity. Qed.
Lemma append_visible (x : item LI) r t : wf t -> is_white x = false -> append_tokens (from_iter (x :: r)) t = extend (x :: r) t.
Proof.
  intros W NW. unfold append_tokens. rewrite <- extend_erase.
  assert (CL : forall t : tokens LI, closed (items (add_item x t))).
  { intros t0. unfold closed, items. intros pre y Q. destruct x; try discriminate NW; cbn in Q; apply app_inj_tail in Q as [_ <-]; reflexivity. }
  assert (EI : map HistoryFacts.erase (items (from_iter (x :: r))) = HistoryFacts.erase x :: map HistoryFacts.erase (items (from_iter r))).
  { change (from_iter (x :: r)) with (extend r (add_item x new)). rewrite extend_closed; [|apply add_item_wf, new_wf|apply CL].
    unfold items at 1, grafted. cbn [ritems]. rewrite map_rev, HistoryFacts.graft_erase, rev_app_distr, <- !map_rev. 
    destruct x; try discriminate NW; reflexivity. }
  rewrite EI. change (HistoryFacts.erase x :: map HistoryFacts.erase (items (from_iter r))) with (map HistoryFacts.erase (x :: items (from_iter r))). rewrite extend_erase.
  change (extend (items (from_iter r)) (add_item x t) = extend r (add_item x t)). rewrite !extend_closed by (try apply add_item_wf; auto).
  rewrite rebuild_tokens by (apply from_iter_wf || apply from_iter_canon). reflexivity.
Qed.
End Append.

(** Quoting into a stream is quoting and appending: if the stream has no pending
    whitespace, or the quote starts with static text or a string. *)
Theorem C60_append_partial : forall LI E (qs : list (quoted_item LI E)) e e' q (before : list (call LI)),
  quote qs e = Some (e', q) -> closed (items (build before)) \/ starts_visible qs ->
  quote_in qs e (build before) = Some (e', append_tokens q (build before)).
Proof.
  intros LI E qs e e' q before Q H. unfold quote, quote_in in *. destruct (quote_code qs) as [[r code]|] eqn:C; [|discriminate]. cbn [option_map snd] in *.
  injection Q as Q. rewrite (quote_supplies _ _ _ C e new) in Q. apply pair_equal_spec in Q as [<- <-]. rewrite (quote_supplies _ _ _ C e (build before)). do 2 f_equal.
  change (extend (fst (quote_mean qs e)) (build before) = append_tokens (from_iter (fst (quote_mean qs e))) (build before)).
  destruct H as [H|H].
  - unfold append_tokens. rewrite !extend_closed by (try apply build_wf; auto). rewrite rebuild_tokens by (apply from_iter_wf || apply from_iter_canon). reflexivity.
  - destruct (mean_first qs e H) as (x & r0 & -> & NW). symmetry. apply append_visible; [apply build_wf|exact NW].
Qed.
Print Assumptions C60_append_partial.

Example C60_example : exists q,
  quote demo 0 = Some (1, q) /\ starts_visible demo /\
  items (append_tokens q (build [CItem (Literal (Box $"a")); CSpace])) =
    Literal (Box $"a") :: Space :: items q.
Proof. eexists. split; [vm_compute; reflexivity|]. split; [discriminate|vm_compute; reflexivity]. Qed.

(** Finding: in general not.  Two absent values, the second on an indented line: the
    levels cancel each other in the quote, but together they take a pending space
    of the target. *)
Theorem C60_append_refuted : exists (qs : list (quoted_item nat nat)) q t before,
  qs = [QEval (word 1 0 $"$x") (fun e => (VOption None, e)); QEval (word 2 4 $"$y") (fun e => (VOption None, e))] /\
  before = [CItem (Literal (Box $"a")); CSpace] /\
  quote qs 0 = Some (0, q) /\ quote_in qs 0 (build before) = Some (0, t) /\
  items (append_tokens q (build before)) = [Literal (Box $"a"); Space] /\ items t = [Literal (Box $"a")].
Proof.
  eexists _, _, _, _. split; [reflexivity|]. split; [reflexivity|]. split; [vm_compute; reflexivity|]. split; [vm_compute; reflexivity|].
  split; vm_compute; reflexivity.
Qed.
Print Assumptions C60_append_refuted.
