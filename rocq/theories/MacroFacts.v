(** * Lemmas: the encoder produces the code the specification describes. *)
From Verif Require Import Str Tokens SpecTokens TokensRun TokensFacts AlgebraFacts Values ValuesFacts SpecFmt Macro SpecMacro.

(** ** Induction *)
Section Ind.
Context {LI E : Type} (P : quoted_item LI E -> Prop) (R : string_item LI E -> Prop).
Hypothesis HText : forall c s, P (QText c s).
Hypothesis HDollar : forall c, P (QDollar c).
Hypothesis HLiteral : forall c s, P (QLiteral c s).
Hypothesis HQuoted : forall c s, P (QQuoted c s).
Hypothesis HGroup : forall c d qs, Forall P qs -> P (QGroup c d qs).
Hypothesis HString : forall c p ps, Forall R ps -> P (QString c p ps).
Hypothesis HControl : forall c k, P (QControl c k).
Hypothesis HEval : forall c v, P (QEval c v).
Hypothesis HScope : forall c v, P (QScope c v).
Hypothesis HEffect : forall c v, P (QEffect c v).
Hypothesis HLoop : forall c it join body,
  match join with Some (_, js) => Forall P js | None => True end -> Forall P body -> P (QLoop c it join body).
Hypothesis HIf : forall c cond a b, Forall P a -> match b with Some b => Forall P b | None => True end ->
  P (QIf c cond a b).
Hypothesis HMatch : forall c sel arms, Forall (fun a => Forall P (snd a)) arms -> P (QMatch c sel arms).
Hypothesis HLet : forall c f, P (QLet c f).
Hypothesis RText : forall c s, R (PText c s).
Hypothesis RDollar : forall c, R (PDollar c).
Hypothesis RConstLit : forall c s, R (PConstLit c s).
Hypothesis RConst : forall c v, R (PConst c v).
Hypothesis RIdent : forall c s, R (PIdent c s).
Hypothesis REval : forall c qs, Forall P qs -> R (PEval c qs).

Fixpoint quoted_ind' (x : quoted_item LI E) : P x :=
  let all := fix all (l : list (quoted_item LI E)) : Forall P l :=
    match l with [] => Forall_nil _ | x :: l' => Forall_cons _ (quoted_ind' x) (all l') end in
  match x with
  | QText c s => HText c s
  | QDollar c => HDollar c
  | QLiteral c s => HLiteral c s
  | QQuoted c s => HQuoted c s
  | QGroup c d qs => HGroup c d qs (all qs)
  | QString c p ps => HString c p ps
      ((fix alls (l : list (string_item LI E)) : Forall R l :=
         match l with [] => Forall_nil _ | x :: l' => Forall_cons _ (string_ind' x) (alls l') end) ps)
  | QControl c k => HControl c k
  | QEval c v => HEval c v
  | QScope c v => HScope c v
  | QEffect c v => HEffect c v
  | QLoop c it join body => HLoop c it join body
      (match join with Some (_, js) => all js | None => I end) (all body)
  | QIf c cond a b => HIf c cond a b (all a) (match b with Some b => all b | None => I end)
  | QMatch c sel arms => HMatch c sel arms
      ((fix alla (l : list (option cursor * list (quoted_item LI E))) : Forall (fun a => Forall P (snd a)) l :=
         match l with [] => Forall_nil _ | a :: l' => Forall_cons _ (all (snd a)) (alla l') end) arms)
  | QLet c f => HLet c f
  end
with string_ind' (x : string_item LI E) : R x :=
  match x with
  | PText c s => RText c s
  | PDollar c => RDollar c
  | PConstLit c s => RConstLit c s
  | PConst c v => RConst c v
  | PIdent c s => RIdent c s
  | PEval c qs => REval c qs
      ((fix all (l : list (quoted_item LI E)) : Forall P l :=
         match l with [] => Forall_nil _ | x :: l' => Forall_cons _ (quoted_ind' x) (all l') end) qs)
  end.
Lemma quoted_string_ind : (forall x, P x) /\ (forall x, R x).
Proof. split; [exact quoted_ind'|exact string_ind']. Qed.
End Ind.

Section Facts.
Context {LI E : Type}.
Notation stmt := (stmt LI E). Notation quoted := (quoted_item LI E). Notation encoder := (encoder LI E).
Notation cchunk := (cchunk LI E).
Implicit Types t : tokens LI.

(** ** Running code *)
Lemma fold_state_app {A} (f : A -> E * tokens LI -> E * tokens LI) a b : forall st,
  fold_state f (a ++ b) st = fold_state f b (fold_state f a st).
Proof. induction a as [|x a IH]; intros st; [reflexivity|]. apply IH. Qed.
Lemma execs_app (a b : list stmt) st : execs (a ++ b) st = execs b (execs a st).
Proof. apply fold_state_app. Qed.

(** Code that supplies items. *)
Definition supplies (c : list stmt) (e : E) (its : list (item LI)) (e' : E) : Prop :=
  forall t, execs c (e, t) = (e', extend its t).
Lemma supplies_nil e : supplies [] e [] e.
Proof. intros t. reflexivity. Qed.
Lemma supplies_app c1 c2 e its1 e1 its2 e2 : supplies c1 e its1 e1 -> supplies c2 e1 its2 e2 ->
  supplies (c1 ++ c2) e (its1 ++ its2) e2.
Proof. intros H1 H2 t. rewrite execs_app, H1, H2, extend_app. reflexivity. Qed.
Lemma supplies_eq c e its1 its2 e' : (forall t, extend its1 t = extend its2 t) -> supplies c e its1 e' -> supplies c e its2 e'.
Proof. intros H S t. rewrite S, H. reflexivity. Qed.
Lemma supplies_item x e : supplies [SItem x] e [x] e.
Proof. intros t. reflexivity. Qed.
Lemma supplies_static s e : supplies [SStatic s] e [Literal (Static s)] e.
Proof. intros t. reflexivity. Qed.
Lemma supplies_append (v : expr (value LI)) e : supplies [SAppend v] e (parts (fst (v e))) (snd (v e)).
Proof.
  intros t. cbn. destruct (v e) as [w e']. cbn. unfold append. rewrite format_into_extend. reflexivity.
Qed.
Lemma supplies_code (v : expr (list (call LI))) e : supplies [SCode v] e (flat_map call_parts (fst (v e))) (snd (v e)).
Proof. intros t. cbn. destruct (v e) as [w e']. cbn. rewrite run_extend. reflexivity. Qed.

(** ** Indentation *)
Lemma indentation_twice a b t : indentation a (indentation b t) = indentation (a + b) t.
Proof.
  unfold indentation. cbn [ritems last_lang_item]. f_equal. revert a b.
  induction (ritems t) as [|x r IH]; intros a b.
  - cbn. destruct (Z.eqb_spec b 0) as [->|N]; cbn; rewrite ?Z.add_0_r; auto.
  - destruct x; cbn; auto;
    try (destruct (Z.eqb_spec b 0) as [->|N]; cbn; rewrite ?Z.add_0_r; reflexivity).
    rewrite IH. f_equal. lia.
Qed.
Lemma indentation_line_twice a b t : indentation a (line (indentation b t)) = indentation (a + b) t.
Proof. rewrite indentation_line. apply indentation_twice. Qed.
Definition unindents (line : bool) (n : nat) : list stmt :=
  concat (repeat (SUnindent :: if line then [SLine] else []) n).
Lemma unindents_snoc line n : unindents line (S n) = unindents line n ++ SUnindent :: (if line then [SLine] else []).
Proof.
  unfold unindents. cbn [repeat]. rewrite repeat_cons, concat_app. cbn [concat]. rewrite app_nil_r. reflexivity.
Qed.
Lemma supplies_unindents line n e : supplies (unindents line (S n)) e
  (Indentation (- Z.of_nat (S n)) :: if line then [Line] else []) e.
Proof.
  intros t. induction n as [|n IH].
  - cbn. destruct line; reflexivity.
  - rewrite unindents_snoc, execs_app, IH. destruct line; cbn [extend fold_left add_item]; cbn.
    + change (unindent ?x) with (indentation (-1) x). rewrite indentation_line_twice. do 3 f_equal. lia.
    + change (unindent ?x) with (indentation (-1) x). rewrite indentation_twice. do 2 f_equal. lia.
Qed.
Lemma supplies_closing (l : list nat) e : supplies (map (fun _ => SUnindent) l) e
  (if length l =? 0 then [] else [Indentation (- Z.of_nat (length l))]) e.
Proof.
  assert (H : map (fun _ => SUnindent) l = unindents false (length l)).
  { unfold unindents. induction l as [|x l IH]; [reflexivity|]. cbn. rewrite IH. reflexivity. }
  rewrite H. destruct (length l) as [|n]; [apply supplies_nil|]. apply supplies_unindents.
Qed.

(** ** Chunks of code *)
(** The same, as state of the encoder: output and buffer. *)
Definition chunk_step (st : list stmt * str) (k : cchunk) : list stmt * str :=
  let '(o, b) := st in
  match k with
  | CText s => (o, b ++ s)
  | CCode c => (o ++ text_code b ++ c, [])
  | CEffect f => (o ++ [SEffect f], b)
  end.
Definition chunks_run (ks : list cchunk) (st : list stmt * str) : list stmt * str := fold_left chunk_step ks st.
Lemma chunks_coalesce ks : forall o b,
  let '(o', b') := chunks_run ks (o, b) in o' ++ text_code b' = o ++ coalesce b ks.
Proof.
  induction ks as [|k ks IH]; intros o b; [reflexivity|]. unfold chunks_run. cbn [fold_left].
  destruct k as [s|c|f]; cbn [chunk_step coalesce]; match goal with |- context [fold_left chunk_step ks (?o1, ?b1)] => specialize (IH o1 b1) end;
  unfold chunks_run in IH; destruct (fold_left _ _ _) as [o' b']; rewrite IH, <- ?app_assoc; reflexivity.
Qed.

Lemma chunks_flush ks (o : list stmt) (b : str) st : st = chunks_run ks (o, b) -> fst st ++ text_code (snd st) = o ++ coalesce b ks.
Proof. intros ->. pose proof (chunks_coalesce ks o b) as H. destruct (chunks_run ks (o, b)). exact H. Qed.

(** Code chunks and what they supply. *)
Inductive says : list cchunk -> E -> list (chunk LI) -> E -> Prop :=
| says_nil e : says [] e [] e
| says_text s ks e cs e' : says ks e cs e' -> says (CText s :: ks) e (KText s :: cs) e'
| says_code c its ks e e1 cs e' : supplies c e its e1 -> says ks e1 cs e' ->
    says (CCode c :: ks) e (KItems its :: cs) e'
| says_effect f ks e cs e' : says ks (f e) cs e' -> says (CEffect f :: ks) e cs e'.
Lemma says_app a : forall e ca e1, says a e ca e1 -> forall b cb e2, says b e1 cb e2 -> says (a ++ b) e (ca ++ cb) e2.
Proof. induction 1; intros b cb e2 H2; cbn; auto; econstructor; eauto. Qed.
Lemma supplies_text s e : supplies (text_code s) e (literal s) e.
Proof. destruct s; [apply supplies_nil|apply supplies_static]. Qed.
Lemma says_supplies ks e cs e' : says ks e cs e' -> forall b,
  supplies (coalesce b ks) e (join_texts b cs) e'.
Proof.
  induction 1; intros b; cbn [coalesce join_texts].
  - apply supplies_text.
  - apply IHsays.
  - eapply supplies_app; [apply supplies_text|]. eapply supplies_app; eauto.
  - intros t. change (SEffect f :: coalesce b ks) with ([SEffect f] ++ coalesce b ks). rewrite execs_app.
    cbn [execs fold_state exec fst snd]. apply IHsays.
Qed.

(** ** The encoder and the place *)
Definition at_place (s : encoder) (w : place) : Prop :=
  match w with
  | None => e_span_start s = None /\ e_last s = None /\ e_last_start_column s = None /\ e_indents s = []
  | Some (frm, cols) =>
      exists c, cols = c :: e_indents s /\
      ((e_span_start s = Some frm /\ p_col frm = c) \/
       (e_span_start s = None /\ exists l, e_last s = Some l /\ c_end l = frm /\
          match e_last_start_column s with None => p_col (c_start l) = c | Some c' => c' = c end))
  end.
Definition code_of (s : encoder) : list stmt * str := (e_output s, e_buffer s).

(** After levels left open by [n], a separation that starts a line closes them. *)
Definition closes_first (n : Z) (p : pending) : Prop := 1 <= p_breaks p /\ (p_breaks p = 1 -> p_indent p <> n).
Definition left_open (n : Z) : pending := mk_pending 1 false 0 (- n).
(** What is pending once [p] is requested after [q]. *)
Definition requested_after (q p : pending) : pending :=
  if Z.eqb (p_indent p) 0 then
    match p_breaks p with
    | 0 => mk_pending (p_breaks q) (p_space q || p_space p) (p_frozen q) (p_indent q)
    | 1 => request TPush q
    | _ => request TLine q
    end
  else
    let q' := change_indent (p_indent p) q in
    if 2 <=? p_breaks p then mk_pending 2 false 0 (p_indent q') else q'.
(** Requests that amount to [p]; a mere space is requested as such. *)
Definition amounts (h : list act) (p : pending) : Prop :=
  requests h /\ requested h = p /\ (p_breaks p = 0 -> h = if p_space p then [TSpace] else []) /\
  forall q, fold_left (fun p a => request a p) h q = requested_after q p.
Lemma amounts_open h p : amounts h p -> forall n, (0 < n)%Z -> closes_first n p ->
  fold_left (fun p a => request a p) h (left_open n) = mk_pending (p_breaks p) (p_space p) (p_frozen p) (p_indent p - n).
Proof.
  intros (_ & R & _ & A) n N [B C]. rewrite A. unfold requested in R. rewrite A in R. unfold requested_after in *. destruct p as [b s f k]. cbn [p_indent p_breaks p_space p_frozen] in *.
  destruct (Z.eqb_spec k 0) as [K|I]; [subst k|].
  - destruct b as [|[|b]]; [lia| |]; cbn in R |- *; injection R; intros; subst; reflexivity.
  - unfold change_indent in *. cbn [left_open nothing p_indent] in *. rewrite Z.add_0_l in R. destruct (Z.eqb_spec k 0); [congruence|].
    destruct (Z.eqb_spec (- n + k) 0) as [Z0|Z0]; destruct (2 <=? b); cbn [p_indent p_breaks] in *; injection R; intros; subst; cbn [nothing p_indent]; try (f_equal; lia).
Qed.
(** Requests that amount to a separation. *)
Definition realizes (g : list stmt) (p : pending) : Prop :=
  (forall e, supplies g e (gap_items p) e) /\
  exists h, g = map act_stmt h /\ amounts h p.

Lemma flush_code s : code_of (flush s) = (e_output s ++ text_code (e_buffer s), []).
Proof. unfold flush, code_of. destruct (e_buffer s) eqn:B; cbn; rewrite ?app_nil_r, ?B; reflexivity. Qed.
Lemma flush_emit g s : code_of (emit g (flush s)) = chunk_step (code_of s) (CCode g).
Proof.
  unfold flush, code_of, emit. destruct (e_buffer s) eqn:B; cbn; rewrite ?B, <- ?app_assoc; reflexivity.
Qed.

Lemma outdent_pop ln col st : 
  match outdent col st with
  | Some (n, cs) => exists rest, cs = col :: rest /\ pop_indents ln col st = Some (rest, unindents ln (S n))
  | None => st <> [] -> pop_indents (LI:=LI) (E:=E) ln col st = None
  end.
Proof.
  induction st as [|c st IH]; [cbn; congruence|]. cbn [outdent pop_indents].
  destruct (Nat.eqb_spec c col) as [->|N].
  - rewrite Nat.ltb_irrefl. cbn [andb]. exists st. split; auto. unfold unindents. cbn. rewrite app_nil_r. reflexivity.
  - destruct (Nat.ltb_spec col c) as [L|L]; [|cbn; auto].
    destruct (outdent col st) as [[n cs]|] eqn:O; cbn [option_map].
    + destruct IH as [rest [-> ->]]. destruct st as [|c1 st]; [discriminate|]. cbn [andb negb].
      exists rest. split; auto.
    + intros _. destruct st as [|c1 st]; cbn [andb negb]; auto. rewrite IH by discriminate. reflexivity.
Qed.
Lemma unindents_realizes ln n : realizes (unindents ln (S n)) (mk_pending (if ln then 2 else 1) false 0 (- Z.of_nat (S n))).
Proof.
  split.
  - intros e. eapply supplies_eq; [|apply supplies_unindents]. intros t. unfold gap_items. cbn [p_indent p_breaks p_space].
    destruct ln; reflexivity.
  - exists (concat (repeat (TUnindent :: if ln then [TLine] else []) (S n))).
    assert (X : forall m q,
      fold_left (fun p a => request a p) (concat (repeat (TUnindent :: if ln then [TLine] else []) (S m))) q =
        requested_after q (mk_pending (if ln then 2 else 1) false 0 (- Z.of_nat (S m)))).
    { assert (Y : forall m k q, k = (- Z.of_nat (S m))%Z -> fold_left (fun p a => request a p) (concat (repeat (TUnindent :: if ln then [TLine] else []) (S m))) q =
        let q' := change_indent k q in if ln then mk_pending 2 false 0 (p_indent q') else q').
      { induction m as [|m IH]; intros k q K.
        - subst k. cbn [repeat concat]. rewrite app_nil_r. change (- Z.of_nat 1)%Z with (-1)%Z. cbn [fold_left request]. unfold change_indent.
          destruct (Z.eqb_spec (p_indent q + -1) 0); destruct ln; reflexivity.
        - change (repeat ?x (S (S m))) with (x :: repeat x (S m)). cbn [concat]. rewrite fold_left_app, (IH (- Z.of_nat (S m))%Z) by reflexivity.
          cbn zeta. assert (PI : p_indent (fold_left (fun p a => request a p) (TUnindent :: if ln then [TLine] else []) q) = (p_indent q + -1)%Z).
          { cbn [fold_left request]. unfold change_indent. destruct (Z.eqb_spec (p_indent q + -1) 0) as [Z0|]; destruct ln; cbn; lia. }
          unfold change_indent. rewrite PI. replace (p_indent q + -1 + - Z.of_nat (S m))%Z with (p_indent q + k)%Z by lia. reflexivity. }
      intros m q. rewrite (Y m _ q eq_refl). unfold requested_after. cbn [p_indent p_breaks]. destruct (Z.eqb_spec (- Z.of_nat (S m)) 0); [lia|]. destruct ln; reflexivity. }
    split; [|split; [|split; [|split; [destruct ln; discriminate|]]]].
    + unfold unindents. rewrite concat_map. f_equal. clear X. induction (S n) as [|m IH]; [reflexivity|]. cbn [repeat map]. rewrite <- IH. destruct ln; reflexivity.
    + apply Forall_concat. apply Forall_forall. intros x H. apply repeat_spec in H as ->. destruct ln; repeat constructor; discriminate.
    + unfold requested. rewrite X. unfold requested_after. cbn [p_indent p_breaks]. unfold change_indent. cbn [nothing p_indent].
      destruct (Z.eqb_spec (- Z.of_nat (S n)) 0); [lia|]. rewrite Z.add_0_l. destruct (Z.eqb_spec (- Z.of_nat (S n)) 0); [lia|]. destruct ln; reflexivity.
    + exact (X n).
Qed.
Lemma realizes_act a p : request a nothing = p -> (forall s, a <> TText s) -> (p_breaks p = 0 -> a = TSpace /\ p_space p = true) ->
  (forall q, request a q = requested_after q p) ->
  (forall e, supplies [act_stmt a] e (gap_items p) e) -> realizes [act_stmt a] p.
Proof. intros R N Z C S. split; auto. exists [a]. split; [auto|]. split; [constructor; auto|]. split; [exact R|]. split; [|exact C].
  intros B. destruct (Z B) as [-> ->]. reflexivity. Qed.
Lemma realizes_nothing : realizes [] nothing.
Proof. split; [intros; apply supplies_nil|]. exists []. split; [auto|]. split; [constructor|]. split; [reflexivity|]. split; [reflexivity|]. intros [b s f i]. cbn. rewrite orb_false_r. reflexivity. Qed.

(** What one separation does to the encoder. *)
Definition keeps_rest (s s' : encoder) : Prop :=
  e_span_end s' = e_span_end s /\ e_req s' = e_req s /\ e_span_start s' = e_span_start s.
Lemma keeps_rest_refl s : keeps_rest s s.
Proof. repeat split. Qed.
Lemma flush_rest s : keeps_rest s (flush s) /\ e_last (flush s) = e_last s /\ e_indents (flush s) = e_indents s /\
  e_last_start_column (flush s) = e_last_start_column s.
Proof. unfold flush. destruct (e_buffer s); repeat split. Qed.
Lemma tokenize_gap frm to c s : e_last_start_column s = Some c ->
  let cols := c :: e_indents s in
  match gap frm to cols with
  | Some (p, cols') =>
      exists s' g, tokenize_whitespace frm to s = Some s' /\ keeps_rest s s' /\ e_last s' = e_last s /\ realizes g p /\
        (if (p_line frm =? p_line to) && negb (p_col frm <? p_col to) then code_of s' = code_of s
         else code_of s' = chunk_step (code_of s) (CCode g)) /\
        (if p_line frm =? p_line to then e_last_start_column s' = Some c /\ cols' = c :: e_indents s'
         else e_last_start_column s' = None /\ cols' = p_col to :: e_indents s')
  | None => tokenize_whitespace frm to s = None
  end.
Proof.
  intros C cols. unfold gap, tokenize_whitespace.
  destruct (Nat.eqb_spec (p_line frm) (p_line to)) as [L|L].
  - cbn [andb]. destruct (Nat.eqb_spec (p_col frm) (p_col to)) as [K|K].
    + rewrite K, Nat.ltb_irrefl. cbn [negb]. exists s, []. split; auto. split; [apply keeps_rest_refl|]. split; auto.
      split; [apply realizes_nothing|]. auto.
    + destruct (Nat.ltb_spec (p_col frm) (p_col to)) as [Q|Q]; cbn [negb].
      * destruct (flush_rest s) as [F1 [F2 [F3 F4]]].
        exists (emit [SSpace] (flush s)), [SSpace]. split; auto. split; [exact F1|]. split; [exact F2|].
        split; [apply (realizes_act TSpace); [reflexivity|discriminate|auto|intros [b p f i]; cbn; rewrite orb_true_r; reflexivity|intros e t; reflexivity]|].
        split; [apply flush_emit|]. cbn [emit e_last_start_column e_indents]. rewrite F4, F3. auto.
      * exists s, []. split; auto. split; [apply keeps_rest_refl|]. split; auto. split; [apply realizes_nothing|]. auto.
  - cbn [andb]. destruct (Nat.ltb_spec (p_line to) (p_line frm)) as [M|M]; [auto|].
    destruct (flush_rest s) as [F1 [F2 [F3 F4]]]. rewrite F4, C. set (ln := 1 <? p_line to - p_line frm).
    cbn [set_column e_indents]. rewrite F3.
    assert (Code : forall g l, code_of (emit g (set_indents l (set_column None (flush s)))) = chunk_step (code_of s) (CCode g)).
    { intros g l. transitivity (code_of (emit g (flush s))); [reflexivity|apply flush_emit]. }
    destruct (Nat.ltb_spec c (p_col to)) as [Q|Q].
    + (* further right *)
      assert (G : gap frm to cols = Some (mk_pending (if ln then 2 else 1) false 0 1, p_col to :: cols)).
      { unfold gap. destruct (Nat.eqb_spec (p_line frm) (p_line to)); [congruence|]. destruct (Nat.ltb_spec (p_line to) (p_line frm)); [lia|].
        fold ln. unfold cols, new_line. destruct (Nat.ltb_spec c (p_col to)); [|lia]. destruct (Nat.ltb_spec (p_col to) c); [lia|].
        destruct (e_indents s); reflexivity. }
      unfold gap in G. destruct (Nat.eqb_spec (p_line frm) (p_line to)); [congruence|]. destruct (Nat.ltb_spec (p_line to) (p_line frm)); [lia|].
      fold ln in G. rewrite G.
      exists (emit (SIndent :: if ln then [SLine] else []) (set_indents (c :: e_indents s) (set_column None (flush s)))),
        (SIndent :: if ln then [SLine] else []).
      split; auto. split; [exact F1|]. split; [exact F2|]. split.
      { split; [intros e t; destruct ln; reflexivity|].
        exists (TIndent :: if ln then [TLine] else []). split; [destruct ln; reflexivity|]. split; [destruct ln; repeat constructor; discriminate|].
        split; [destruct ln; reflexivity|]. split; [destruct ln; discriminate|]. intros q.
        cbn [fold_left request]. unfold requested_after. cbn [p_indent p_breaks Z.eqb]. unfold change_indent. destruct (Z.eqb_spec (p_indent q + 1) 0); destruct ln; reflexivity. }
      split; [apply Code|]. split; reflexivity.
    + destruct (Nat.ltb_spec (p_col to) c) as [W|W].
      * (* further left *)
        assert (G : match gap frm to cols with
          | Some (p, cols') => match e_indents s with
              | [] => p = nothing /\ cols' = [p_col to]
              | _ => exists n, outdent (p_col to) (e_indents s) = Some (n, cols') /\ p = mk_pending (if ln then 2 else 1) false 0 (- Z.of_nat (S n)) end
          | None => e_indents s <> [] /\ outdent (p_col to) (e_indents s) = None end).
        { unfold gap. destruct (Nat.eqb_spec (p_line frm) (p_line to)); [congruence|]. destruct (Nat.ltb_spec (p_line to) (p_line frm)); [lia|].
          fold ln. unfold cols, new_line. destruct (Nat.ltb_spec c (p_col to)); [lia|]. destruct (Nat.ltb_spec (p_col to) c); [|lia].
          cbn [outdent]. destruct (Nat.eqb_spec c (p_col to)); [lia|]. destruct (Nat.ltb_spec (p_col to) c); [|lia].
          destruct (e_indents s) as [|i is]; [auto|]. destruct (outdent (p_col to) (i :: is)) as [[n' cs]|]; cbn [option_map].
          - eexists. split; reflexivity.
          - split; [discriminate|auto]. }
        unfold gap in G. destruct (Nat.eqb_spec (p_line frm) (p_line to)); [congruence|]. destruct (Nat.ltb_spec (p_line to) (p_line frm)); [lia|].
        fold ln in G. 
        match type of G with match ?x with _ => _ end => destruct x as [[p cols']|] end.
        -- destruct (e_indents s) as [|i is] eqn:EI.
           ++ destruct G as [-> ->]. cbn [pop_indents].
              exists (emit [] (set_indents [] (set_column None (flush s)))), [].
              split; auto. split; [exact F1|]. split; [exact F2|]. split; [apply realizes_nothing|]. split; [apply Code|]. split; reflexivity.
           ++ destruct G as [m [O ->]]. pose proof (outdent_pop ln (p_col to) (i :: is)) as OP. rewrite O in OP. destruct OP as [rest [-> ->]].
              eexists; exists (unindents ln (S m)). split; [reflexivity|]. split; [exact F1|]. split; [exact F2|]. split; [apply unindents_realizes|].
              split; [apply Code|]. split; reflexivity.
        -- destruct G as [NE O]. pose proof (outdent_pop ln (p_col to) (e_indents s)) as OP. rewrite O in OP. rewrite OP; auto.
      * (* same column *)
        assert (c = p_col to) by lia. subst c.
        assert (G : gap frm to cols = Some (mk_pending (if ln then 2 else 1) false 0 0, cols)).
        { unfold gap. destruct (Nat.eqb_spec (p_line frm) (p_line to)); [congruence|]. destruct (Nat.ltb_spec (p_line to) (p_line frm)); [lia|].
          fold ln. unfold cols, new_line. rewrite Nat.ltb_irrefl. cbn [outdent]. rewrite Nat.eqb_refl.
          destruct (e_indents s); reflexivity. }
        unfold gap in G. destruct (Nat.eqb_spec (p_line frm) (p_line to)); [congruence|]. destruct (Nat.ltb_spec (p_line to) (p_line frm)); [lia|].
        fold ln in G. rewrite G.
        exists (emit [if ln then SLine else SPush] (set_column None (flush s))), [if ln then SLine else SPush].
        split; auto. split; [exact F1|]. split; [exact F2|]. split.
        { destruct ln; [apply (realizes_act TLine)|apply (realizes_act TPush)]; try reflexivity; try discriminate; intros e t; try reflexivity;
            cbn; f_equal; lia. }
        split; [transitivity (code_of (emit [if ln then SLine else SPush] (flush s))); [reflexivity|apply flush_emit]|].
        split; [reflexivity|]. unfold cols. cbn. rewrite F3. reflexivity.
Qed.

(** From the encoder's start or last token to the next position. *)
Lemma from_place s frm cols : at_place s (Some (frm, cols)) -> exists s' c,
  from s = (Some frm, s') /\ cols = c :: e_indents s' /\ e_last_start_column s' = Some c /\ e_span_start s' = None /\
  code_of s' = code_of s /\ e_span_end s' = e_span_end s /\ e_req s' = e_req s /\
  (e_span_start s = None -> e_last s' = e_last s).
Proof.
  intros (c & -> & H). unfold from. destruct H as [[H1 H2]|(H1 & l & H2 & H3 & H4)]; rewrite H1.
  - eexists; exists c. split; [reflexivity|]. cbn. rewrite H2. repeat split.
  - rewrite H2, H3. destruct (e_last_start_column s) as [c'|] eqn:C.
    + subst c'. exists s, c. repeat split; auto.
    + eexists; exists c. split; [reflexivity|]. cbn. rewrite H4. repeat split; auto.
Qed.
Definition gap_chunk (c : cursor) (w : place) (g : list stmt) : list cchunk :=
  if adjacent c w then [] else [CCode g].
Lemma step_enter c s w : at_place s w ->
  match enter c w with
  | Some (p, w') => exists s' g, step c s = Some s' /\ at_place s' w' /\ e_span_end s' = e_span_end s /\ e_req s' = e_req s /\
      realizes g p /\ code_of s' = chunks_run (gap_chunk c w g) (code_of s)
  | None => step c s = None
  end.
Proof.
  intros AT. destruct w as [[frm cols]|].
  - destruct (from_place s frm cols AT) as (s1 & col & F & -> & C & SS & CO & SE & RQ & _).
    unfold enter. pose proof (tokenize_gap frm (c_start c) col s1 C) as T. cbv zeta in T. unfold step. rewrite F.
    destruct (gap frm (c_start c) (col :: e_indents s1)) as [[p cols']|]; cbn [option_map].
    + destruct T as (s' & g & -> & (K1 & K2 & K3) & _ & R & CC & PL).
      exists (set_last c s'), g. split; auto. split.
      { exists (hd 0 cols'). destruct (p_line frm =? p_line (c_start c)); destruct PL as [PL ->]; (split; [reflexivity|]); right;
        (split; [cbn; congruence|]); exists c; cbn; rewrite PL; auto. }
      split; [cbn; congruence|]. split; [cbn; congruence|]. split; auto.
      unfold gap_chunk, adjacent. rewrite <- CO. destruct (_ && _); exact CC.
    + rewrite T. reflexivity.
  - destruct AT as (A1 & A2 & A3 & A4). cbn [enter]. unfold step, from. rewrite A1, A2.
    exists (set_last c s), []. split; auto. split.
    { exists (p_col (c_start c)). split; [cbn; rewrite A4; reflexivity|]. right. split; [exact A1|].
      exists c. cbn. rewrite A3. auto. }
    split; auto. split; auto. split; [apply realizes_nothing|reflexivity].
Qed.
End Facts.
