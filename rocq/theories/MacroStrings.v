(** * Lemmas: interpolated strings. *)
From Verif Require Import Str Tokens SpecTokens TokensRun TokensFacts Values ValuesFacts Fmt SpecFmt OutputFacts Macro SpecMacro SpecQuote
  MacroFacts MacroSem MacroTokens MacroControl.

Section Strings.
Context {LI E : Type}.
Notation stmt := (stmt LI E). Notation quoted := (quoted_item LI E). Notation sencoder := (sencoder LI E).
Notation sitem := (string_item LI E). Notation cchunk := (cchunk LI E).

(** ** Code *)
Definition spiece (x : sitem) : option (cchunk * bool) :=
  match x with
  | PText _ s | PConstLit _ s => Some (CText s, false)
  | PDollar _ => Some (CText $"$", false)
  | PConst _ v => Some (CCode [SAppend v], false)
  | PIdent _ n => Some (CCode [SItem OpenEval; SItem (Literal (Static n)); SItem CloseEval], false)
  | PEval c qs => bind (quote_code (eval_block c qs)) (fun r => Some (CCode (SItem OpenEval :: snd r ++ [SItem CloseEval]), fst r))
  end.
Lemma sencode_piece (x : sitem) (s : sencoder) cur : s_cursor s = Some cur ->
  sencode x s =
  if p_line cur =? p_line (c_start (string_cursor x)) then
    bind (spiece x) (fun '(k, rq) =>
      let '(o, b) := chunks_run [CText (blank_text cur (c_start (string_cursor x))); k] (s_stream s, s_buf s) in
      Some (mk_sencoder (Some (c_end (string_cursor x))) b o (s_has_eval s || is_eval x) (s_req s || rq)))
  else None.
Proof.
  intros C.
  assert (STR : forall t c, encode_str t c s = if p_line cur =? p_line (c_start c) then
    Some (mk_sencoder (Some (c_end c)) ((s_buf s ++ blank_text cur (c_start c)) ++ t) (s_stream s) (s_has_eval s || false) (s_req s || false)) else None).
  { intros t c. unfold encode_str, flush_whitespace. rewrite C. destruct (p_line cur =? p_line (c_start c)); [|reflexivity]. cbn. rewrite !orb_false_r. reflexivity. }
  assert (EM : forall g ev rq c, semit g ev rq c s = if p_line cur =? p_line (c_start c) then
    Some (mk_sencoder (Some (c_end c)) [] (s_stream s ++ text_code (s_buf s ++ blank_text cur (c_start c)) ++ g) (s_has_eval s || ev) (s_req s || rq)) else None).
  { intros g ev rq c. unfold semit, sflush, flush_whitespace. rewrite C. destruct (p_line cur =? p_line (c_start c)); [|reflexivity]. cbn. unfold blank_text.
    destruct (s_buf s ++ repeat 32%N (p_col (c_start c) - p_col cur)); cbn; rewrite ?app_nil_r, <- ?app_assoc; reflexivity. }
  destruct x; try (cbn [sencode spiece string_cursor is_eval bind]; rewrite ?STR, ?EM; cbn; destruct (p_line cur =? _); reflexivity).
  - rewrite encode_eval. cbn [spiece string_cursor is_eval]. unfold eval_block. rewrite in_parens_code. destruct (quote_code _) as [[r code]|]; cbn [bind fst snd].
    + rewrite EM. cbn. destruct (p_line cur =? _); reflexivity.
    + destruct (p_line cur =? _); reflexivity.
Qed.
Fixpoint sbody (cur : pos) (ps : list sitem) (stop : pos) : option (list cchunk * bool) :=
  match ps with
  | [] => if p_line cur =? p_line stop then Some ([CText (blank_text cur stop)], false) else None
  | x :: ps' =>
      if p_line cur =? p_line (c_start (string_cursor x)) then
        bind (spiece x) (fun '(k, rq) => bind (sbody (c_end (string_cursor x)) ps' stop) (fun '(ks, rqs) =>
          Some (CText (blank_text cur (c_start (string_cursor x))) :: k :: ks, rq || rqs)))
      else None
  end.
Lemma sbody_fold ps stop : forall (s : sencoder) cur, s_cursor s = Some cur ->
  bind (fold_opt sencode ps s) (sflush (Some stop) None) =
  bind (sbody cur ps stop) (fun '(ks, rq) => Some (mk_sencoder None [] (s_stream s ++ coalesce (s_buf s) ks) (s_has_eval s || existsb is_eval ps) (s_req s || rq))).
Proof.
  induction ps as [|x ps IH]; intros s cur C.
  - cbn [fold_opt bind sbody existsb]. unfold sflush, flush_whitespace. rewrite C. destruct (p_line cur =? p_line stop); [|reflexivity]. cbn [negb bind s_buf coalesce].
    unfold blank_text. destruct (s_buf s ++ repeat 32%N (p_col stop - p_col cur)); cbn; rewrite !orb_false_r, ?app_nil_r; reflexivity.
  - rewrite fold_opt_cons, (sencode_piece x s cur C). cbn [sbody]. destruct (p_line cur =? p_line (c_start (string_cursor x))); [|reflexivity].
    destruct (spiece x) as [[k rq]|]; [|reflexivity]. cbn [bind].
    destruct (chunks_run [CText (blank_text cur (c_start (string_cursor x))); k] (s_stream s, s_buf s)) as [o b] eqn:CR. cbn [bind].
    rewrite (IH _ (c_end (string_cursor x))) by reflexivity. destruct (sbody (c_end (string_cursor x)) ps stop) as [[ks rqs]|]; [|reflexivity]. cbn [bind].
    cbn [s_stream s_buf s_has_eval s_req existsb]. rewrite !orb_assoc. do 2 f_equal.
    assert (X : forall ks o b o' b', chunks_run ks (o, b) = (o', b') -> forall ks2, o' ++ coalesce b' ks2 = o ++ @coalesce LI E b (ks ++ ks2)).
    { clear. induction ks as [|k ks IH]; intros o b o' b' H ks2.
      - cbn in H. injection H as <- <-. reflexivity.
      - cbn [chunks_run fold_left] in H. destruct k; cbn [chunk_step fst snd app coalesce] in *.
        + apply (IH _ _ _ _ H).
        + erewrite (IH _ _ _ _ H). rewrite <- !app_assoc. reflexivity.
        + erewrite (IH _ _ _ _ H). rewrite <- !app_assoc. reflexivity. }
    erewrite (X _ _ _ _ _ CR). reflexivity.
Qed.
Lemma spiece_none (x : sitem) : spiece x = None <-> exists c qs, x = PEval c qs /\ quote_code (eval_block c qs) = None.
Proof.
  split.
  - destruct x; try discriminate. cbn [spiece]. destruct (quote_code _) eqn:Q; [discriminate|]. eauto.
  - intros (c & qs & -> & Q). cbn [spiece]. rewrite Q. reflexivity.
Qed.
Lemma sbody_some ps stop : forall cur, match sbody cur ps stop with
  | Some (ks, rq) => one_line cur ps stop /\ evals_accepted ps /\ (rq = true -> existsb is_eval ps = true)
  | None => ~ (one_line cur ps stop /\ evals_accepted ps)
  end.
Proof.
  induction ps as [|x ps IH]; intros cur; cbn [sbody one_line].
  - destruct (Nat.eqb_spec (p_line cur) (p_line stop)) as [Q|Q]; [|tauto]. split; [auto|]. split; [intros ? ? []|discriminate].
  - destruct (Nat.eqb_spec (p_line cur) (p_line (c_start (string_cursor x)))) as [Q|Q]; [|tauto].
    destruct (spiece x) as [[k rq]|] eqn:SP.
    + cbn [bind]. specialize (IH (c_end (string_cursor x))). destruct (sbody _ ps stop) as [[ks rqs]|]; cbn [bind].
      * destruct IH as (I1 & I2 & I3). split; [auto|]. split.
        { intros c qs [->|H]; [|eauto]. intros N. rewrite (proj2 (spiece_none (PEval c qs))) in SP; [discriminate|eauto]. }
        cbn [existsb]. intros H. apply orb_true_iff in H as [H|H]; [|rewrite I3 by auto; apply orb_true_r].
        destruct x; cbn in SP; try (injection SP as _ <-; discriminate). reflexivity.
      * intros [[_ O] A]. apply IH. split; auto. intros c qs H. apply A. right. exact H.
    + cbn [bind]. apply spiece_none in SP as (c & qs & -> & N). intros [_ A]. apply (A c qs); [left; reflexivity|exact N].
Qed.
Theorem string_code c paren (ps : list sitem) :
  quote_code [QString c paren ps] =
  bind (sbody (inner_start paren) ps (inner_end paren)) (fun '(ks, _) =>
    Some (existsb is_eval ps, SItem (OpenQuote (existsb is_eval ps)) :: coalesce [] ks ++ [SItem CloseQuote])).
Proof.
  pose proof (sbody_fold ps (inner_end paren) (sencoder_new (inner_start paren)) _ eq_refl) as F.
  pose proof (sbody_some ps (inner_end paren) (inner_start paren)) as S.
  destruct (sbody (inner_start paren) ps (inner_end paren)) as [[ks rq]|]; cbn [bind] in F |- *.
  - unfold quote_code, block_with. rewrite fold_opt_cons, encode_string, F. cbn [bind sencoder_new s_stream s_buf s_has_eval s_req app orb].
    destruct S as (_ & _ & S).
    change (option_map inner_start None) with (@None pos). change (option_map inner_end None) with (@None pos).
    assert (ST : step c (require rq (encoder_new None None)) = Some (set_last c (require rq (@encoder_new LI E None None)))) by reflexivity.
    rewrite ST. cbn [bind fold_opt]. unfold finalize. cbn. rewrite app_nil_r. do 2 f_equal. destruct rq; [rewrite S by auto|]; reflexivity.
  - unfold quote_code, block_with. rewrite fold_opt_cons, encode_string, F. reflexivity.
Qed.

(** ** Source *)
Lemma skipn_skipn {A} a : forall b (l : list A), skipn a (skipn b l) = skipn (b + a) l.
Proof. induction b; intros [|x l]; cbn; rewrite ?skipn_nil; auto. Qed.
Lemma slice_app src a b c : a <= b -> b <= c -> slice src a b ++ slice src b c = slice src a c.
Proof.
  intros H1 H2. unfold slice. rewrite <- (firstn_skipn (b - a) (firstn (c - a) (skipn a src))). f_equal.
  - rewrite firstn_firstn. f_equal. lia.
  - rewrite skipn_firstn_comm, skipn_skipn. f_equal; [lia|]. f_equal. lia.
Qed.
Lemma source_body src ps stop : forall cur ks rq, spelled src (p_col cur) ps (p_col stop) -> sbody cur ps stop = Some (ks, rq) ->
  forall b, coalesce b (source_pieces src (p_col cur) ps (p_col stop)) = coalesce b ks.
Proof.
  assert (B : forall cur to, blank_source src (p_col cur) (p_col to) -> slice src (p_col cur) (p_col to) = blank_text cur to) by (intros cur to [_ H]; exact H).
  induction ps as [|x ps IH]; intros cur ks rq SP SB b.
  - cbn [sbody] in SB. destruct (_ =? _); [|discriminate]. injection SB as <- _. cbn [source_pieces]. rewrite (B _ _ SP). reflexivity.
  - cbn [spelled] in SP. destruct SP as (B1 & LE & TX & SP). cbn [sbody] in SB. destruct (_ =? _); [|discriminate].
    destruct (spiece x) as [[k rq1]|] eqn:SX; [|discriminate]. cbn [bind] in SB.
    destruct (sbody (c_end (string_cursor x)) ps stop) as [[ks2 rq2]|] eqn:SB2; [|discriminate]. cbn [bind] in SB. injection SB as <- _.
    specialize (IH _ _ _ SP SB2). cbn [source_pieces].
    pose proof (B _ _ B1) as BB. destruct B1 as [LE1 _].
    destruct x; cbn [string_cursor] in *; cbn [spiece] in SX; try (injection SX as <- _; cbn [app coalesce]; rewrite BB, IH; reflexivity).
    + injection SX as <- _. cbn [app coalesce]. rewrite <- (slice_app src (p_col cur) (p_col (c_start c)) (p_col (c_end c))) by lia. rewrite BB, TX, IH, app_assoc. reflexivity.
    + destruct (quote_code (eval_block c qs)) as [[r code]|]; [|discriminate]. cbn [bind fst snd] in SX. injection SX as <- _. cbn [app coalesce]. rewrite BB, IH. reflexivity.
Qed.

(** ** Documents *)
Definition nd_all := fix all (l : list (node LI)) : Prop := match l with [] => True | n :: l' => node_flags n /\ all l' end.
Lemma nd_all_forall l : nd_all l <-> Forall node_flags l.
Proof. induction l; cbn; [split; auto|]. split; [intros [? ?]; constructor; tauto|inversion 1; tauto]. Qed.
Definition pt_all := fix all (l : list (part LI)) : Prop := match l with [] => True | n :: l' => part_flags n /\ all l' end.
Lemma pt_all_forall l : pt_all l <-> Forall part_flags l.
Proof. induction l; cbn; [split; auto|]. split; [intros [? ?]; constructor; tauto|inversion 1; tauto]. Qed.
Lemma pieces_app (a b : list (item LI)) : pieces (a ++ b) = pieces a ++ pieces b.
Proof. apply flat_map_app. Qed.
Lemma documents_app (a b : list (item LI)) : documents a -> documents b -> documents (a ++ b).
Proof.
  intros (n1 & O1 & F1 & P1) (n2 & O2 & F2 & P2). exists (n1 ++ n2). unfold doc_ok, doc_items in *.
  rewrite forallb_app, O1, O2, flat_map_app, !pieces_app, P1, P2. repeat split; auto. apply Forall_app; auto.
Qed.
Lemma documents_blank (xs : list (item LI)) : pieces xs = [] -> documents xs.
Proof. intros H. exists []. repeat split; auto. Qed.
Lemma documents_plain (xs : list (item LI)) : forallb plain xs = true -> documents xs.
Proof.
  intros H. exists (map NItem xs). unfold doc_ok, doc_items. repeat split.
  - rewrite <- H. clear H. induction xs; cbn; congruence.
  - apply Forall_forall. intros n I. apply in_map_iff in I as (x & <- & _). exact I.
  - f_equal. clear H. induction xs; cbn; congruence.
Qed.
Lemma documents_pieces (a b : list (item LI)) : pieces a = pieces b -> documents a -> documents b.
Proof. intros Q (n & ? & ? & ?). exists n. repeat split; auto. congruence. Qed.
Lemma documents_literal s : documents (@literal LI s).
Proof. apply documents_plain. destruct s; reflexivity. Qed.
(** The inside of a string, with ([b]) or without interpolation. *)
Notation is_peval := (fun p : part LI => match p with SpecFmt.PEval _ => true | _ => false end).
Definition inside (xs : list (item LI)) (b : bool) : Prop :=
  exists ps, forallb part_ok ps = true /\ Forall part_flags ps /\ existsb is_peval ps = b /\ pieces xs = pieces (flat_map part_items ps).
Lemma inside_app a b x y : inside a x -> inside b y -> inside (a ++ b) (x || y).
Proof.
  intros (n1 & O1 & F1 & E1 & P1) (n2 & O2 & F2 & E2 & P2). exists (n1 ++ n2).
  rewrite forallb_app, O1, O2, flat_map_app, !pieces_app, P1, P2, existsb_app, E1, E2. repeat split; auto. apply Forall_app; auto.
Qed.
Lemma inside_plain xs : forallb plain xs = true -> inside xs false.
Proof.
  intros H. exists (map PItem xs). repeat split.
  - rewrite <- H. clear H. induction xs; cbn; congruence.
  - apply Forall_forall. intros n I. apply in_map_iff in I as (x & <- & _). exact I.
  - clear H. induction xs; cbn; congruence.
  - f_equal. clear H. induction xs; cbn; congruence.
Qed.
Lemma inside_const xs : constant_content xs -> inside xs false.
Proof.
  intros (ps & O & F & P). exists ps. repeat split; auto.
  - eapply Forall_impl; [|exact F]. intros [| |]; cbn; tauto.
  - clear -F. induction F as [|[| |] l H F IH]; cbn; auto. destruct H.
Qed.
Lemma inside_pieces a b x : pieces a = pieces b -> inside a x -> inside b x.
Proof. intros Q (n & ? & ? & ? & ?). exists n. repeat split; auto. congruence. Qed.
Lemma inside_eval xs : documents xs -> inside (OpenEval :: xs ++ [CloseEval]) true.
Proof.
  intros (n & O & F & P). exists [SpecFmt.PEval n]. repeat split.
  - cbn [forallb part_ok]. rewrite andb_true_r. exact O.
  - constructor; [|constructor]. change (nd_all n). apply nd_all_forall. exact F.
  - cbn [flat_map part_items]. rewrite app_nil_r. change (OpenEval :: ?l) with ([OpenEval] ++ l). rewrite !pieces_app, P. reflexivity.
Qed.
Lemma inside_string xs b : inside xs b -> documents (OpenQuote b :: xs ++ [CloseQuote]).
Proof.
  intros (n & O & F & Q & P). exists [NString b n]. repeat split.
  - unfold doc_ok. cbn [forallb node_ok]. rewrite andb_true_r. exact O.
  - constructor; [|constructor]. split; [congruence|]. change (pt_all n). apply pt_all_forall. exact F.
  - unfold doc_items. cbn [flat_map node_items]. rewrite app_nil_r. change (OpenQuote b :: ?l) with ([OpenQuote b] ++ l). rewrite !pieces_app, P. reflexivity.
Qed.
Definition doc_chunk (k : chunk LI) : Prop := match k with KText _ => True | KItems its => documents its end.
Lemma doc_join ks : Forall doc_chunk ks -> forall b, documents (join_texts b ks).
Proof.
  induction 1 as [|k ks H F IH]; intros b; cbn [join_texts]; [apply documents_literal|].
  destruct k; [apply IH|]. apply documents_app; [apply documents_literal|]. apply documents_app; [exact H|apply IH].
Qed.
Definition in_chunk (k : chunk LI) (b : bool) : Prop := match k with KText _ => b = false | KItems its => inside its b end.
Lemma in_join ks bs : Forall2 in_chunk ks bs -> forall b, inside (join_texts b ks) (existsb (fun b => b) bs).
Proof.
  assert (L : forall s, inside (literal s) false) by (intros s; apply inside_plain; destruct s; reflexivity).
  induction 1 as [|k x ks bs H F IH]; intros b; cbn [join_texts existsb]; [apply L|].
  destruct k; cbn in H; [subst x; apply IH|]. change (x || ?y) with (false || (x || y)). apply inside_app; [apply L|]. apply inside_app; [exact H|apply IH].
Qed.
Notation EV := (every_value (@document_value LI E) document_scope constant_value).
Notation EVI := (every_value_in (@document_value LI E) document_scope constant_value).
Definition dv_all := fix all (l : list quoted) : Prop := match l with [] => True | x :: l' => EV x /\ all l' end.
Lemma dv_all_forall l : dv_all l <-> Forall EV l.
Proof. induction l; cbn; [split; auto|]. split; [intros [? ?]; constructor; tauto|inversion 1; tauto]. Qed.
Definition dv_alls := fix alls (l : list sitem) : Prop := match l with [] => True | x :: l' => EVI x /\ alls l' end.
Lemma dv_alls_forall l : dv_alls l <-> Forall EVI l.
Proof. induction l; cbn; [split; auto|]. split; [intros [? ?]; constructor; tauto|inversion 1; tauto]. Qed.
Definition dv_arms := fix every (l : list (option cursor * list quoted)) : Prop := match l with [] => True | (_, qs) :: l' => dv_all qs /\ every l' end.
Lemma gap_blank (p : pending) : pieces (@gap_items LI p) = [].
Proof. unfold gap_items. destruct (Z.eqb (p_indent p) 0), (p_breaks p) as [|[|n]], (p_space p); reflexivity. Qed.
Lemma enter_docs c (st : mstate LI E) : Forall doc_chunk (m_chunks st) -> Forall doc_chunk (m_chunks (enter_chunks c st)).
Proof.
  intros H. unfold enter_chunks. destruct (enter c (m_place st)) as [[p w]|]; [|exact H]. cbn [m_chunks]. apply Forall_app. split; [exact H|].
  destruct (adjacent c (m_place st)); [constructor|]. constructor; [|constructor]. apply documents_blank, gap_blank.
Qed.
Definition mean_docs (x : quoted) : Prop := EV x -> forall st, Forall doc_chunk (m_chunks st) -> Forall doc_chunk (m_chunks (@mean LI E x st)).
Lemma fold_docs qs : Forall mean_docs qs -> Forall EV qs -> forall st, Forall doc_chunk (m_chunks st) ->
  Forall doc_chunk (m_chunks (fold_left (fun st x => @mean LI E x st) qs st)).
Proof. induction 1 as [|x qs H _ IH]; intros F st D; [exact D|]. inversion F; subst. cbn [fold_left]. apply IH; auto. Qed.
Lemma block_docs span qs e : Forall mean_docs qs -> Forall EV qs -> documents (fst (block_mean_with (@mean LI E) span qs e)).
Proof.
  intros M F. unfold block_mean_with. cbn [fst].
  assert (D : Forall doc_chunk (m_chunks (fold_left (fun st x => @mean LI E x st) qs (mk_mstate (start_of span) [] e)))) by (apply fold_docs; auto; constructor).
  apply documents_app.
  - apply doc_join. destruct span; [apply enter_docs|]; exact D.
  - apply documents_blank. match goal with |- pieces (if ?b then _ else _) = _ => destruct b; reflexivity end.
Qed.
Lemma loop_docs (body join : E -> list (item LI) * E) bs : (forall e, documents (fst (body e))) -> (forall e, documents (fst (join e))) ->
  forall e, documents (fst (loop_mean body join bs e)).
Proof.
  intros B J. induction bs as [|b bs IH]; intros e; cbn [loop_mean]; [apply documents_blank; reflexivity|].
  specialize (B (b e)). destruct (body (b e)) as [its e1]. cbn [fst] in B.
  assert (S : documents (fst (match bs with [] => ([], e1) | _ => join e1 end))) by (destruct bs; [apply documents_blank; reflexivity|apply J]).
  destruct (match bs with [] => ([], e1) | _ => join e1 end) as [sep e2]. cbn [fst] in S.
  specialize (IH e2). destruct (loop_mean body join bs e2) as [rest e3]. cbn [fst] in *. apply documents_app; auto. apply documents_app; auto.
Qed.
Lemma value_docs (v : value LI) : documents (items (append v new)) <-> documents (parts v).
Proof.
  assert (Q : pieces (items (append v new)) = pieces (parts v)).
  { replace (append v new) with (extend (parts v) new) by (symmetry; apply format_into_extend). rewrite extend_pieces. reflexivity. }
  split; apply documents_pieces; auto.
Qed.
Lemma scope_docs (cs : list (call LI)) : documents (items (run cs new)) <-> documents (flat_map call_parts cs).
Proof.
  assert (Q : pieces (items (run cs new)) = pieces (flat_map call_parts cs)) by (rewrite run_extend, extend_pieces; reflexivity).
  split; apply documents_pieces; auto.
Qed.
Definition string_docs (x : sitem) : Prop := EVI x -> forall at_ ks e bs, Forall2 in_chunk ks bs ->
  exists ks' bs', snd (fst (@string_mean LI E x (at_, ks, e))) = ks ++ ks' /\ Forall2 in_chunk ks' bs' /\ existsb (fun b => b) bs' = is_eval x.
Lemma put_docs k st : doc_chunk k -> Forall doc_chunk (m_chunks st) -> Forall doc_chunk (m_chunks (@put LI E k st)).
Proof. intros K H. cbn. apply Forall_app. auto. Qed.
Lemma put_items_docs r st : documents (fst r) -> Forall doc_chunk (m_chunks st) -> Forall doc_chunk (m_chunks (@put_items LI E r st)).
Proof. intros K H. cbn. apply Forall_app. auto. Qed.
Theorem all_docs : (forall x, mean_docs x) /\ (forall x, string_docs x).
Proof.
  apply quoted_string_ind; unfold mean_docs, string_docs.
  - intros c s _ st H. cbn [mean]. apply put_docs; [exact I|]. apply enter_docs, H.
  - intros c _ st H. cbn [mean]. apply put_docs; [exact I|]. apply enter_docs, H.
  - intros c s _ st H. cbn [mean]. apply put_docs; [exact I|]. apply enter_docs, H.
  - intros c s _ st H. cbn [mean]. apply put_docs; [|apply enter_docs, H]. apply (inside_string [Literal (Static s)] false). apply inside_plain. reflexivity.
  - intros c d qs IH V st H. change (dv_all qs) in V. rewrite dv_all_forall in V. cbn [mean]. apply put_docs; [exact I|]. apply enter_docs.
    apply (fold_docs qs IH V). apply put_docs; [exact I|]. apply enter_docs, H.
  - intros c paren ps IH V st H. change (dv_alls ps) in V. rewrite dv_alls_forall in V. rewrite mean_string. cbv zeta.
    assert (F : forall ps, Forall string_docs ps -> Forall EVI ps -> forall at_ ks e bs, Forall2 in_chunk ks bs ->
      exists bs', Forall2 in_chunk (snd (fst (fold_left (fun st x => @string_mean LI E x st) ps (at_, ks, e)))) (bs ++ bs') /\ existsb (fun b => b) bs' = existsb is_eval ps).
    { clear. induction 1 as [|x ps H _ IH]; intros V at_ ks e bs F; inversion V; subst.
      - exists []. rewrite app_nil_r. split; [exact F|reflexivity].
      - cbn [fold_left]. destruct (H H2 at_ ks e bs F) as (ks1 & bs1 & Q1 & F1 & E1).
        destruct (string_mean x (at_, ks, e)) as [[a1 k1] e1]. cbn [fst snd] in Q1. subst k1.
        destruct (IH H3 a1 (ks ++ ks1) e1 (bs ++ bs1)) as (bs2 & F2 & E2); [apply Forall2_app; auto|].
        exists (bs1 ++ bs2). rewrite app_assoc, existsb_app, E1, E2. split; [exact F2|reflexivity]. }
    destruct (F ps IH V (inner_start paren) [] (m_env (enter_chunks c st)) [] (Forall2_nil _)) as (bs & F2 & Q). cbn [app] in F2.
    destruct (fold_left _ ps _) as [[a K] e]. cbn [fst snd] in F2. apply put_items_docs; [|apply enter_docs, H]. cbn [fst].
    apply inside_string. rewrite <- Q. replace (existsb (fun b => b) bs) with (existsb (fun b : bool => b) (bs ++ [false])) by (rewrite existsb_app; cbn; apply orb_false_r).
    apply in_join. apply Forall2_app; [exact F2|]. repeat constructor.
  - intros c k _ st H. cbn [mean]. apply put_docs; [|apply enter_docs, H]. apply documents_blank. destruct k; reflexivity.
  - intros c v V st H. cbn [mean]. pose proof (V (m_env (enter_chunks c st))) as D. destruct (v _) as [w e]. cbn [fst] in D. apply put_items_docs; [|apply enter_docs, H].
    apply value_docs. exact D.
  - intros c v V st H. cbn [mean]. pose proof (V (m_env (enter_chunks c st))) as D. destruct (v _) as [w e]. cbn [fst] in D. apply put_items_docs; [|apply enter_docs, H].
    apply scope_docs. exact D.
  - intros c f _ st H. cbn [mean m_chunks]. apply enter_docs, H.
  - intros c it join body J B V st H. change (match join with Some (_, js) => dv_all js | None => True end /\ dv_all body) in V. destruct V as [VJ VB].
    rewrite dv_all_forall in VB. cbn [mean]. destruct (it _) as [bs e]. apply put_items_docs; [|apply enter_docs, H].
    apply loop_docs.
    + intros e'. apply block_docs; auto.
    + intros e'. destruct join as [[paren js]|]; [|apply documents_blank; reflexivity]. rewrite dv_all_forall in VJ. apply block_docs; auto.
  - intros c cond a b A B V st H. change (dv_all a /\ match b with Some b => dv_all b | None => True end) in V. destruct V as [VA VB].
    rewrite dv_all_forall in VA. cbn [mean]. destruct (cond _) as [yes e]. apply put_items_docs; [|apply enter_docs, H].
    destruct yes; [apply block_docs; auto|]. destruct b as [b|]; [|apply documents_blank; reflexivity]. rewrite dv_all_forall in VB. apply block_docs; auto.
  - intros c sel arms A V st H. change (dv_arms arms) in V. cbn [mean]. destruct (sel _) as [i e]. apply put_items_docs; [|apply enter_docs, H].
    change (documents (fst (pick_mean e arms i))). revert i. induction A as [|[paren qs] arms QA _ IH]; intros i; [destruct i; apply documents_blank; reflexivity|].
    cbn in V. destruct V as [V1 V2]. rewrite dv_all_forall in V1. destruct i; cbn [pick_mean]; [apply block_docs; auto|apply IH, V2].
  - intros c f _ st H. cbn [mean]. apply put_items_docs; [apply documents_blank; reflexivity|apply enter_docs, H].
  - intros c s _ at_ ks e bs F. cbn [string_mean fst snd]. exists [KText (blank_text at_ (c_start c)); KText s], [false; false]. repeat split; repeat constructor.
  - intros c _ at_ ks e bs F. cbn [string_mean fst snd]. exists [KText (blank_text at_ (c_start c)); KText $"$"], [false; false]. repeat split; repeat constructor.
  - intros c s _ at_ ks e bs F. cbn [string_mean fst snd]. exists [KText (blank_text at_ (c_start c)); KText s], [false; false]. repeat split; repeat constructor.
  - intros c v V at_ ks e bs F. cbn [string_mean]. specialize (V e). destruct (v e) as [w e1]. cbn [fst snd] in *.
    exists [KText (blank_text at_ (c_start c)); KItems (parts w)], [false; false]. repeat split; constructor; [reflexivity|]; constructor; [|constructor].
    cbn. apply inside_const in V. eapply inside_pieces; [|exact V].
    change (append w new) with (format_into w new). rewrite format_into_extend, extend_pieces. reflexivity.
  - intros c n _ at_ ks e bs F. cbn [string_mean fst snd].
    exists [KText (blank_text at_ (c_start c)); KItems [OpenEval; Literal (Static n); CloseEval]], [false; true]. repeat split; constructor; [reflexivity|]; constructor; [|constructor].
    apply (inside_eval [Literal (Static n)]). apply documents_plain. reflexivity.
  - intros c qs IH V at_ ks e bs F. change (dv_all qs) in V. rewrite dv_all_forall in V. rewrite mean_eval.
    pose proof (block_docs (Some (eval_span c qs)) qs e IH V) as D. destruct (block_mean_with mean (Some (eval_span c qs)) qs e) as [its e1]. cbn [fst snd] in *.
    exists [KText (blank_text at_ (c_start c)); KItems (OpenEval :: its ++ [CloseEval])], [false; true]. repeat split; constructor; [reflexivity|]; constructor; [|constructor].
    apply inside_eval, D.
Qed.
Theorem quote_documents (qs : list quoted) e t e' t' : Forall EV qs -> quote_in qs e t = Some (e', t') -> documents (items t) -> documents (items t').
Proof.
  intros V Q D. unfold quote_in in Q. destruct (quote_code qs) as [[r code]|] eqn:C; [|discriminate]. cbn [option_map snd] in Q. injection Q as Q.
  rewrite (quote_supplies _ _ _ C e t) in Q. apply (f_equal snd) in Q. cbn [snd] in Q. subst t'.
  apply (documents_pieces (items t ++ fst (quote_mean qs e))); [rewrite extend_pieces, pieces_app; reflexivity|]. apply documents_app; [exact D|].
  apply block_docs; [|exact V]. apply Forall_forall. intros x _. apply (proj1 all_docs).
Qed.
Lemma accepts_pieces (xs : list (item LI)) : forall ys b, pieces xs = pieces ys -> accepts b xs = accepts b ys.
Proof.
  assert (B : forall (x : item LI) b, piece_of x = [] -> step_bracket b x = Some b) by (intros [] b H; try discriminate H; reflexivity).
  assert (N : forall (ys : list (item LI)) b, pieces ys = [] -> accepts b ys = true).
  { induction ys as [|y ys IH]; intros b H; [reflexivity|]. cbn in H. apply app_eq_nil in H as [H1 H2]. cbn [accepts]. rewrite (B _ _ H1). auto. }
  assert (S : forall (x y : item LI) b, piece_of x = piece_of y -> step_bracket b x = step_bracket b y).
  { intros x y b H. destruct x, y; try discriminate H; try reflexivity. injection H as <-. reflexivity. }
  assert (O : forall x : item LI, piece_of x = [] \/ exists p, piece_of x = [p]) by (intros []; cbn; eauto).
  induction xs as [|x xs IH]; intros ys b H; [rewrite (N ys) by (symmetry; exact H); reflexivity|].
  cbn [accepts]. change (pieces (x :: xs)) with (piece_of x ++ pieces xs) in H. destruct (O x) as [OX|[p OX]].
  - rewrite (B _ _ OX). apply IH. rewrite OX in H. exact H.
  - rewrite OX in H. revert b. induction ys as [|y ys IHy]; intros b; [discriminate|]. cbn [accepts].
    change (pieces (y :: ys)) with (piece_of y ++ pieces ys) in H. destruct (O y) as [OY|[q OY]].
    + rewrite (B _ _ OY). apply IHy. rewrite OY in H. exact H.
    + rewrite OY in H. cbn in H. injection H as -> H. rewrite (S x y b) by congruence. destruct (step_bracket b y); auto.
Qed.

(** ** Requirements *)
Lemma flush_req (s : encoder LI E) : e_req (flush s) = e_req s.
Proof. unfold flush. destruct (e_buffer s); reflexivity. Qed.
Lemma tokenize_req frm to (s s3 : encoder LI E) : tokenize_whitespace frm to s = Some s3 -> e_req s3 = e_req s.
Proof.
  pose proof flush_req as FL. unfold tokenize_whitespace. destruct (_ && _); [congruence|].
  assert (G : forall s4 : encoder LI E, Some s4 = Some s3 -> e_req s4 = e_req s -> e_req s3 = e_req s) by congruence.
  destruct (p_line frm =? p_line to).
  - destruct (p_col frm <? p_col to); intros H; apply (G _ H); cbn; auto.
  - destruct (p_line to <? p_line frm); [discriminate|]. destruct (e_last_start_column (flush s)); [|intros H; apply (G _ H); auto].
    destruct (n <? p_col to); [intros H; apply (G _ H); cbn; auto|].
    destruct (p_col to <? n); [|intros H; apply (G _ H); cbn; auto].
    destruct (pop_indents _ _ _) as [[r o2]|]; [|discriminate]. intros H; apply (G _ H); cbn; auto.
Qed.
Lemma from_req (s : encoder LI E) : e_req (snd (from s)) = e_req s.
Proof. unfold from. cbn. destruct (e_span_start s); [reflexivity|]. destruct (e_last s); [|reflexivity]. destruct (e_last_start_column s); reflexivity. Qed.
Lemma step_req c (s s1 : encoder LI E) : step c s = Some s1 -> e_req s1 = e_req s.
Proof.
  unfold step. pose proof (from_req s) as F. destruct (from s) as [f s2]. cbn [snd] in F.
  assert (G : forall s4 : encoder LI E, Some s4 = Some s1 -> e_req s4 = e_req s -> e_req s1 = e_req s) by congruence.
  destruct f as [frm|].
  - destruct (tokenize_whitespace frm (c_start c) s2) as [s3|] eqn:Q; [|discriminate]. intros H. apply (G _ H). cbn. rewrite (tokenize_req _ _ _ _ Q). exact F.
  - intros H. apply (G _ H). exact F.
Qed.
Definition req_ok (x : quoted) : Prop := forall s s' : encoder LI E, encode x s = Some s' -> e_req s' = e_req s || interpolates x.
Lemma fold_req qs : Forall req_ok qs -> forall s s' : encoder LI E, fold_opt encode qs s = Some s' -> e_req s' = e_req s || existsb interpolates qs.
Proof.
  induction 1 as [|x qs H _ IH]; intros s s' Q.
  - cbn in Q. cbn. rewrite orb_false_r. congruence.
  - rewrite fold_opt_cons in Q. destruct (encode x s) as [s1|] eqn:E1; [|discriminate]. cbn [bind] in Q. rewrite (IH _ _ Q), (H _ _ E1), <- orb_assoc. reflexivity.
Qed.
Lemma block_req span qs r code : Forall req_ok qs -> block_with (@encode LI E) span qs = Some (r, code) -> r = existsb interpolates qs.
Proof.
  intros F H. unfold block_with in H. destruct (fold_opt encode qs _) as [s|] eqn:Q; [|discriminate]. apply fold_req in Q; auto. cbn [bind] in H. cbn in Q.
  rewrite <- Q. unfold finalize in H. destruct (e_span_end s).
  - pose proof (from_req (set_span_end None s)) as FR. destruct (from (set_span_end None s)) as [f s2]. cbn [snd] in FR. destruct f as [frm|].
    + destruct (tokenize_whitespace frm p s2) as [s3|] eqn:T; [|discriminate]. cbn [bind] in H. injection H as <- _. rewrite flush_req, (tokenize_req _ _ _ _ T). exact FR.
    + cbn [bind] in H. injection H as <- _. rewrite flush_req. exact FR.
  - cbn [bind] in H. injection H as <- _. apply flush_req.
Qed.
Lemma enter_req c b g (s s' : encoder LI E) : bind (step c (require b s)) (fun s => Some (emit g (flush s))) = Some s' -> e_req s' = e_req s || b.
Proof.
  destruct (step c (require b s)) as [s1|] eqn:Q; [|discriminate]. intros H. cbn [bind] in H.
  assert (X : e_req (emit g (flush s1)) = e_req s') by congruence. rewrite <- X. etransitivity; [apply flush_req|]. rewrite (step_req _ _ _ Q). reflexivity.
Qed.
Lemma enter_req0 c g (s s' : encoder LI E) : bind (step c s) (fun s => Some (emit g (flush s))) = Some s' -> e_req s' = e_req s || false.
Proof. intros H. rewrite <- (require_false s) in H. exact (enter_req _ _ _ _ _ H). Qed.
Lemma text_req c t (s s' : encoder LI E) : bind (step c s) (fun s => Some (buffer_push t s)) = Some s' -> e_req s' = e_req s || false.
Proof.
  destruct (step c s) as [s1|] eqn:Q; [|discriminate]. intros H. cbn [bind] in H.
  assert (X : e_req (buffer_push t s1) = e_req s') by congruence. rewrite <- X, orb_false_r. cbn. apply (step_req _ _ _ Q).
Qed.
Theorem all_req : (forall x, req_ok x) /\ (forall x : sitem, True).
Proof.
  apply quoted_string_ind; auto; unfold req_ok.
  - intros c t s s'. apply text_req.
  - intros c s s'. apply text_req.
  - intros c t s s'. apply text_req.
  - intros c t s s'. apply enter_req0.
  - intros c d qs IH s s' H. cbn [encode] in H. destruct (step (first_character c) s) as [s1|] eqn:Q1; [|discriminate]. cbn [bind] in H.
    destruct (fold_opt encode qs _) as [s2|] eqn:Q2; [|discriminate]. cbn [bind] in H. apply text_req in H. rewrite orb_false_r in H.
    apply fold_req in Q2; auto. rewrite H, Q2. change (interpolates (QGroup c d qs)) with (existsb interpolates qs). f_equal. cbn. apply (step_req _ _ _ Q1).
  - intros c paren ps IH s s' H. rewrite encode_string, (sbody_fold ps (inner_end paren) (sencoder_new (inner_start paren)) (inner_start paren)) in H by reflexivity.
    pose proof (sbody_some ps (inner_end paren) (inner_start paren)) as S. destruct (sbody (inner_start paren) ps (inner_end paren)) as [[ks rq]|]; [|discriminate].
    cbn [bind sencoder_new s_has_eval s_req s_stream s_buf orb] in H. destruct S as (_ & _ & S).
    destruct (step c (require rq s)) as [s1|] eqn:Q; [|discriminate]. cbn [bind] in H.
    match type of H with Some ?a = Some _ => assert (X : e_req a = e_req s') by congruence end. rewrite <- X. etransitivity; [apply flush_req|].
    cbn [require e_req]. rewrite (step_req _ _ _ Q). cbn [require e_req]. change (interpolates (QString c paren ps)) with (existsb is_eval ps).
    destruct rq; [rewrite S by auto; rewrite !orb_true_r; reflexivity|rewrite orb_false_r; reflexivity].
  - intros c k s s'. apply enter_req0.
  - intros c v s s'. apply enter_req0.
  - intros c v s s'. apply enter_req0.
  - intros c f s s' H. cbn [encode] in H. destruct (step c s) as [s1|] eqn:Q; [|discriminate]. cbn [bind] in H.
    assert (X : e_req (emit [SEffect f] s1) = e_req s') by congruence. rewrite <- X. cbn. rewrite orb_false_r. apply (step_req _ _ _ Q).
  - intros c it join body J B s s' H. cbn [encode] in H.
    destruct join as [[paren js]|]; cbn [bind] in H.
    + destruct (block_with encode (Some paren) js) as [[r1 c1]|] eqn:B1; [|discriminate]. cbn [bind] in H.
      destruct (block_with encode None body) as [[r2 c2]|] eqn:B2; [|discriminate]. cbn [bind fst snd] in H. apply enter_req in H.
      apply block_req in B1; auto. apply block_req in B2; auto. subst. exact H.
    + destruct (block_with encode None body) as [[r2 c2]|] eqn:B2; [|discriminate]. cbn [bind fst snd] in H. apply enter_req in H.
      apply block_req in B2; auto. subst. exact H.
  - intros c cond a b A B s s' H. cbn [encode] in H. destruct (block_with encode None a) as [[r1 c1]|] eqn:B1; [|discriminate]. cbn [bind] in H.
    apply block_req in B1; auto. destruct b as [b|]; cbn [bind] in H.
    + destruct (block_with encode None b) as [[r2 c2]|] eqn:B2; [|discriminate]. cbn [bind fst snd] in H. apply enter_req in H.
      apply block_req in B2; auto. subst. exact H.
    + apply enter_req in H. subst. exact H.
  - intros c sel arms A s s' H. cbn [encode] in H. change (bind (fold_opt (@arm_step LI E) arms (false, [])) (fun r => bind (step c (require (fst r) s)) (fun s => Some (emit [SMatch sel (snd r)] (flush s)))) = Some s') in H.
    destruct (fold_opt (@arm_step LI E) arms (false, [])) as [r|] eqn:Q; [|discriminate]. cbn [bind] in H. apply enter_req in H. rewrite H. f_equal.
    assert (X : forall acc r, fold_opt (@arm_step LI E) arms acc = Some r -> fst r = fst acc || existsb (fun arm => existsb interpolates (snd arm)) arms).
    { clear -A. induction A as [|[paren qs] arms QA _ IH]; intros acc r H; [cbn in *; rewrite orb_false_r; congruence|].
      rewrite fold_opt_cons in H. destruct (arm_step (paren, qs) acc) as [a1|] eqn:AS; [|discriminate]. cbn [bind] in H. rewrite (IH _ _ H).
      unfold arm_step in AS. destruct (block_with encode paren qs) as [[r1 c1]|] eqn:B; [|discriminate]. cbn [bind] in AS. injection AS as <-. cbn [fst snd existsb].
      apply block_req in B; auto. rewrite B, orb_assoc. reflexivity. }
    exact (X _ _ Q).
  - intros c f s s'. apply enter_req0.
Qed.
Theorem quote_req qs r code : @quote_code LI E qs = Some (r, code) -> r = existsb interpolates qs.
Proof. intros H. eapply block_req; [|exact H]. apply Forall_forall. intros x _. apply (proj1 all_req). Qed.
End Strings.
