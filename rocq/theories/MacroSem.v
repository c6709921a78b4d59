(** * Lemmas: the generated code does what the reference semantics says. *)
From Verif Require Import Str Tokens SpecTokens TokensRun TokensFacts AlgebraFacts Values ValuesFacts SpecFmt Macro SpecMacro MacroFacts.

Section Sem.
Context {LI E : Type}.
Notation stmt := (stmt LI E). Notation quoted := (quoted_item LI E). Notation encoder := (encoder LI E).
Notation cchunk := (cchunk LI E).

Definition item_ok (x : quoted) : Prop := forall (s : encoder) w, at_place s w ->
  match encode x s with
  | Some s' => exists w' (ks : list cchunk), at_place s' w' /\ e_span_end s' = e_span_end s /\
      code_of s' = chunks_run ks (code_of s) /\
      forall K e, exists cs e', says ks e cs e' /\ mean x (mk_mstate w K e) = mk_mstate w' (K ++ cs) e'
  | None => True
  end.
Definition string_ok (x : string_item LI E) : Prop := forall (s : sencoder LI E) cur, s_cursor s = Some cur ->
  match sencode x s with
  | Some s' => exists cur' (ks : list cchunk), s_cursor s' = Some cur' /\
      (s_stream s', s_buf s') = chunks_run ks (s_stream s, s_buf s) /\
      s_has_eval s' = s_has_eval s || is_eval x /\
      forall K e, exists cs e', says ks e cs e' /\ string_mean x (cur, K, e) = (cur', K ++ cs, e')
  | None => True
  end.
Definition block_ok (qs : list quoted) : Prop := forall span r code,
  block_with encode span qs = Some (r, code) -> forall e,
  supplies code e (fst (block_mean_with mean span qs e)) (snd (block_mean_with mean span qs e)).

Lemma chunks_run_app a b st : chunks_run (a ++ b) st = chunks_run b (@chunks_run LI E a st).
Proof. apply fold_left_app. Qed.
Lemma at_require b (s : encoder) w : at_place (require b s) w <-> at_place s w.
Proof. destruct w as [[frm cols]|]; reflexivity. Qed.

(** Entering. *)
Lemma enter_says c w g p w' : enter c w = Some (p, w') -> realizes g p -> forall (K : list (chunk LI)) (e : E), exists cs,
  says (gap_chunk c w g) e cs e /\ enter_chunks c (mk_mstate w K e) = mk_mstate w' (K ++ cs) e.
Proof.
  intros EN [R _] K e. unfold enter_chunks. cbn [m_place m_chunks m_env]. rewrite EN. unfold gap_chunk.
  destruct (adjacent c w).
  - exists []. split; [constructor|reflexivity].
  - exists [KItems (gap_items p)]. split; [|reflexivity]. econstructor; [apply R|constructor].
Qed.
Lemma enter_ok c (s s1 : encoder) w : at_place s w -> step c s = Some s1 -> exists w' (ks : list cchunk), at_place s1 w' /\
  e_span_end s1 = e_span_end s /\ code_of s1 = chunks_run ks (code_of s) /\
  forall K e, exists cs, says ks e cs e /\ enter_chunks c (mk_mstate w K e) = mk_mstate w' (K ++ cs) e.
Proof.
  intros AT ST. pose proof (step_enter c s w AT) as H. destruct (enter c w) as [[p w']|] eqn:EN; [|congruence].
  destruct H as (s' & g & ST' & AT' & SE & _ & R & CC). rewrite ST in ST'. injection ST' as <-.
  exists w', (gap_chunk c w g). split; auto. split; auto. split; auto. intros K e. eapply enter_says; eauto.
Qed.

(** A single chunk after the separation. *)
Lemma leaf_ok x c b (F : encoder -> encoder) k :
  (forall s, encode x s = bind (step c (require b s)) (fun s => Some (F s))) ->
  (forall s w, at_place s w -> at_place (F s) w) ->
  (forall s, e_span_end (F s) = e_span_end s) ->
  (forall s, code_of (F s) = chunk_step (code_of s) k) ->
  (forall e, exists cs e', says [k] e cs e' /\ forall w K,
     mean x (mk_mstate w K e) = mk_mstate (m_place (enter_chunks c (mk_mstate w K e))) (m_chunks (enter_chunks c (mk_mstate w K e)) ++ cs) e') ->
  item_ok x.
Proof.
  intros E1 E2 E3 E4 E5 s w AT. rewrite E1. destruct (step c (require b s)) as [s1|] eqn:ST; [|exact I]. cbn [bind].
  assert (AT' : at_place (require b s) w) by (apply at_require; auto).
  destruct (enter_ok c _ _ _ AT' ST) as (w' & ks & A & SE & CC & M).
  exists w', (ks ++ [k]). split; [auto|]. split; [rewrite E3; exact SE|]. split.
  { rewrite E4, CC, chunks_run_app. reflexivity. }
  intros K e. destruct (M K e) as (cs & S & EQ). destruct (E5 e) as (cs2 & e2 & S2 & EQ2).
  exists (cs ++ cs2), e2. split; [eapply says_app; eauto|]. rewrite EQ2, EQ. cbn [m_place m_chunks]. rewrite <- app_assoc. reflexivity.
Qed.
Lemma at_emit g (s : encoder) w : at_place s w -> at_place (emit g s) w.
Proof. destruct w as [[frm cols]|]; auto. Qed.
Lemma at_flush (s : encoder) w : at_place s w -> at_place (flush s) w.
Proof. unfold flush. destruct (e_buffer s); auto. Qed.
Lemma at_push t (s : encoder) w : at_place s w -> at_place (buffer_push t s) w.
Proof. destruct w as [[frm cols]|]; auto. Qed.
Lemma end_flush (s : encoder) : e_span_end (flush s) = e_span_end s.
Proof. unfold flush. destruct (e_buffer s); reflexivity. Qed.
Lemma require_false (s : encoder) : require false s = s.
Proof. destruct s. unfold require. cbn. rewrite orb_false_r. reflexivity. Qed.

(** Text. *)
Lemma text_ok x c t : (forall s, encode x s = bind (step c s) (fun s => Some (buffer_push t s))) ->
  (forall st, mean x st = put (KText t) (enter_chunks c st)) -> item_ok x.
Proof.
  intros E1 E2. apply (leaf_ok x c false (buffer_push t) (CText t)).
  - intros s. rewrite require_false. apply E1.
  - intros. apply at_push; auto.
  - reflexivity.
  - reflexivity.
  - intros e. exists [KText t], e. split; [repeat constructor|]. intros w K. rewrite E2. unfold put. f_equal.
    unfold enter_chunks. cbn [m_place m_chunks m_env]. destruct (enter c w) as [[? ?]|]; reflexivity.
Qed.
(** Code. *)
Lemma enter_env c w K (e : E) : m_env (@enter_chunks LI E c (mk_mstate w K e)) = e.
Proof. unfold enter_chunks. cbn [m_place m_chunks m_env]. destruct (enter c w) as [[? ?]|]; reflexivity. Qed.
Lemma code_ok x c b g : (forall s, encode x s = bind (step c (require b s)) (fun s => Some (emit g (flush s)))) ->
  (forall e, exists its e', supplies g e its e' /\
    forall w K, mean x (mk_mstate w K e) = put_items (its, e') (enter_chunks c (mk_mstate w K e))) -> item_ok x.
Proof.
  intros E1 E2. apply (leaf_ok x c b (fun s => emit g (flush s)) (CCode g)); auto.
  - intros. apply at_emit, at_flush; auto.
  - intros. apply end_flush.
  - apply flush_emit.
  - intros e. destruct (E2 e) as (its & e' & S & M). exists [KItems its], e'. split; [repeat econstructor; eauto|].
    intros w K. rewrite M. reflexivity.
Qed.

(** ** Lists of elements *)
Lemma fold_ok qs : Forall item_ok qs -> forall (s : encoder) w, at_place s w ->
  match fold_opt encode qs s with
  | Some s' => exists w' (ks : list cchunk), at_place s' w' /\ e_span_end s' = e_span_end s /\
      code_of s' = chunks_run ks (code_of s) /\
      forall K e, exists cs e', says ks e cs e' /\
        fold_left (fun st x => mean x st) qs (mk_mstate w K e) = mk_mstate w' (K ++ cs) e'
  | None => True
  end.
Proof.
  induction 1 as [|x qs H F IH]; intros s w AT.
  - cbn. exists w, []. split; auto. split; auto. split; auto. intros K e. exists [], e. split; [constructor|]. rewrite app_nil_r. reflexivity.
  - cbn [fold_opt]. specialize (H s w AT). destruct (encode x s) as [s1|]; [|exact I].
    destruct H as (w1 & ks1 & A1 & SE1 & C1 & M1). specialize (IH s1 w1 A1).
    change ((fix go (l : list quoted) (s0 : encoder) {struct l} := _) qs s1) with (fold_opt encode qs s1) in *.
    destruct (fold_opt encode qs s1) as [s2|]; [|exact I].
    destruct IH as (w2 & ks2 & A2 & SE2 & C2 & M2). exists w2, (ks1 ++ ks2). split; auto. split; [congruence|].
    split; [rewrite chunks_run_app, <- C1; auto|].
    intros K e. destruct (M1 K e) as (cs1 & e1 & S1 & Q1). destruct (M2 (K ++ cs1) e1) as (cs2 & e2 & S2 & Q2).
    exists (cs1 ++ cs2), e2. split; [eapply says_app; eauto|]. cbn [fold_left]. rewrite Q1, Q2, <- app_assoc. reflexivity.
Qed.

(** The place never becomes [None] again. *)
Lemma enter_place c st : m_place st <> None -> m_place (@enter_chunks LI E c st) <> None.
Proof.
  intros N. unfold enter_chunks. destruct (enter c (m_place st)) as [[p w]|] eqn:EN; [|auto].
  cbn. destruct (m_place st) as [[frm cols]|]; [|congruence]. unfold enter in EN. destruct (gap _ _ _) as [[? ?]|]; [|discriminate].
  injection EN as <- <-. discriminate.
Qed.
Lemma mean_place : (forall x st, m_place st <> None -> m_place (@mean LI E x st) <> None) /\ (forall x : string_item LI E, True).
Proof.
  apply quoted_string_ind; try (intros; exact I); try (intros; cbn [mean put put_items m_place]; apply enter_place; auto; fail).
  - intros c0 d qs F0 st N. cbn [mean put m_place]. apply enter_place.
    assert (IHq : forall st, m_place st <> None -> m_place (fold_left (fun st x => @mean LI E x st) qs st) <> None).
    { induction F0 as [|y ys Hy Hys IH]; intros st' N'; [exact N'|]. cbn. apply IH, Hy, N'. }
    apply IHq. cbn. apply enter_place, N.
  - intros c0 p ps _ st N. cbn [mean]. destruct (fold_left _ ps _) as [[? ?] ?]. cbn. apply enter_place, N.
  - intros c0 v st N. cbn [mean]. destruct (v _) as [? ?]. cbn. apply enter_place, N.
  - intros c0 v st N. cbn [mean]. destruct (v _) as [? ?]. cbn. apply enter_place, N.
  - intros c0 it join body _ _ st N. cbn [mean]. destruct (it _) as [? ?]. cbn. apply enter_place, N.
  - intros c0 cond a b _ _ st N. cbn [mean]. destruct (cond _) as [? ?]. cbn. apply enter_place, N.
  - intros c0 sel arms _ st N. cbn [mean]. destruct (sel _) as [? ?]. cbn. apply enter_place, N.
Qed.
Lemma fold_place qs : forall st, m_place st <> None -> m_place (fold_left (fun st x => @mean LI E x st) qs st) <> None.
Proof. induction qs as [|y ys IH]; intros st N; [exact N|]. cbn. apply IH, mean_place, N. Qed.

Lemma blocks qs : Forall item_ok qs -> block_ok qs.
Proof.
  intros F span r code H e. unfold block_with in H.
  set (s0 := encoder_new (option_map inner_start span) (option_map inner_end span)) in H.
  assert (AT : at_place s0 (start_of span)).
  { destruct span as [c|]; cbn; [|auto]. exists (p_col (inner_start c)). split; auto. }
  pose proof (fold_ok qs F s0 (start_of span) AT) as FO.
  destruct (fold_opt encode qs s0) as [s1|]; [|discriminate]. cbn [bind] in H.
  destruct FO as (w1 & ks & A1 & SE & CC & M). destruct (M [] e) as (cs & e' & S & Q). cbn [app] in Q.
  unfold block_mean_with. rewrite Q.
  assert (Fin : forall s2 w2 (ks2 : list cchunk) cs2, at_place s2 w2 -> code_of s2 = chunks_run ks2 (code_of s0) -> says ks2 e cs2 e' ->
    supplies (e_output (flush s2) ++ map (fun _ => SUnindent) (e_indents (flush s2))) e
      (join_texts [] cs2 ++ (if depth w2 =? 0 then [] else [Indentation (- Z.of_nat (depth w2))])) e').
  { intros s2 w2 ks2 cs2 AT2 C2 S2.
    assert (D : length (e_indents (flush s2)) = depth w2).
    { destruct (flush_rest s2) as (_ & _ & -> & _). destruct w2 as [[frm cols]|]; cbn.
      - destruct AT2 as (c & -> & _). cbn. lia.
      - destruct AT2 as (_ & _ & _ & ->). reflexivity. }
    eapply supplies_app; [|rewrite <- D; apply supplies_closing].
    pose proof (says_supplies _ _ _ _ S2 []) as SS. pose proof (chunks_flush ks2 [] [] (code_of s2) C2) as CO. cbn [code_of fst snd] in CO.
    pose proof (f_equal fst (flush_code s2)) as FC. cbn [code_of fst] in FC. rewrite FC, CO. exact SS. }
  destruct span as [c|].
  - assert (E1 : e_span_end s1 = Some (inner_end c)) by (rewrite SE; reflexivity).
    unfold finalize in H. rewrite E1 in H.
    set (ce := mk_cursor (inner_end c) (inner_end c)).
    assert (AT1 : at_place (set_span_end None s1) w1) by (destruct w1 as [[? ?]|]; exact A1).
    (* finalizing is a step whose token is never recorded *)
    pose proof (step_enter ce (set_span_end None s1) w1 AT1) as ST. unfold step in ST.
    destruct (from (set_span_end None s1)) as [f s2] eqn:EF.
    assert (W1 : exists frm cols, w1 = Some (frm, cols)).
    { destruct w1 as [[frm cols]|]; [eauto|]. exfalso.
      apply (fold_place qs (mk_mstate (start_of (Some c)) [] e)); [discriminate|]. rewrite Q. reflexivity. }
    destruct W1 as (frm & cols & ->). destruct (from_place _ _ _ AT1) as (s2' & col & EF' & _). rewrite EF' in EF. injection EF as <- <-.
    cbn [c_start] in ST.
    destruct (enter ce (Some (frm, cols))) as [[p w']|] eqn:EN.
    + destruct ST as (s3 & g & ST & A3 & _ & _ & R & C3). unfold ce in ST. cbn [c_start] in ST.
      destruct (tokenize_whitespace frm (inner_end c) s2') as [s4|] eqn:TW; [|discriminate]. injection ST as <-.
      cbn [bind] in H. injection H as <- <-.
      destruct (enter_says ce _ g p w' EN R cs e') as (cs3 & S3 & Q3).
      change (mk_cursor (before_close c) (before_close c)) with ce. rewrite Q3. cbn [m_place m_chunks m_env fst snd].
      assert (A4 : exists w4, at_place (set_last ce s4) w4 /\ depth w4 = depth w') by eauto.
      pose proof (Fin (set_last ce s4) w' (ks ++ gap_chunk ce (Some (frm, cols)) g) (cs ++ cs3) A3) as FF.
      assert (C4 : code_of (set_last ce s4) = chunks_run (ks ++ gap_chunk ce (Some (frm, cols)) g) (code_of s0)).
      { rewrite chunks_run_app, <- CC. exact C3. }
      specialize (FF C4 (says_app _ _ _ _ S _ _ _ S3)).
      assert (FL : forall s : encoder, e_output (flush (set_last ce s)) = e_output (flush s) /\ e_indents (flush (set_last ce s)) = e_indents (flush s)).
      { intros s. unfold flush, set_last. cbn. destruct (e_buffer s); cbn; auto. }
      destruct (FL s4) as [FL1 FL2]. rewrite FL1, FL2 in FF. exact FF.
    + unfold ce in ST. cbn [c_start] in ST. destruct (tokenize_whitespace frm (inner_end c) s2'); discriminate.
  - assert (E1 : e_span_end s1 = None) by (rewrite SE; reflexivity).
    unfold finalize in H. rewrite E1 in H. cbn [bind] in H. injection H as <- <-.
    cbn [m_place m_chunks m_env fst snd]. exact (Fin s1 w1 ks cs A1 CC S).
Qed.

(** ** Strings *)
Lemma flush_whitespace_ok f to (s s' : sencoder LI E) cur : s_cursor s = Some cur -> flush_whitespace (Some f) to s = Some s' ->
  s_cursor s' = to /\ s_stream s' = s_stream s /\ s_buf s' = s_buf s ++ blank_text cur f /\ s_has_eval s' = s_has_eval s /\ s_req s' = s_req s.
Proof.
  intros C. unfold flush_whitespace. rewrite C. destruct (negb _); [discriminate|]. intros H. injection H as <-. repeat split.
Qed.
Lemma sflush_ok f to (s s' : sencoder LI E) cur : s_cursor s = Some cur -> sflush (Some f) to s = Some s' ->
  s_cursor s' = to /\ s_stream s' = s_stream s ++ text_code (s_buf s ++ blank_text cur f) /\ s_buf s' = [] /\
  s_has_eval s' = s_has_eval s /\ s_req s' = s_req s.
Proof.
  intros C H. unfold sflush in H. destruct (flush_whitespace (Some f) to s) as [s1|] eqn:F; [|discriminate]. cbn [bind] in H.
  destruct (flush_whitespace_ok _ _ _ _ _ C F) as (F1 & F2 & F3 & F4 & F5). rewrite <- F3, <- F2.
  destruct (s_buf s1) as [|x b] eqn:B; injection H as <-; cbn; rewrite ?app_nil_r; auto.
Qed.
Lemma str_ok x c t : (forall s, sencode x s = encode_str t c s) -> is_eval x = false ->
  (forall a K e, string_mean x (a, K, e) = (c_end c, K ++ [KText (blank_text a (c_start c)); KText t], e)) -> string_ok x.
Proof.
  intros E1 E2 E3 s cur C. rewrite E1. unfold encode_str.
  destruct (flush_whitespace (Some (c_start c)) (Some (c_end c)) s) as [s1|] eqn:F; [|exact I]. cbn [bind s_cursor s_stream s_buf s_has_eval].
  destruct (flush_whitespace_ok _ _ _ _ _ C F) as (F1 & F2 & F3 & F4 & F5).
  exists (c_end c), [CText (blank_text cur (c_start c)); CText t]. split; [auto|]. split; [cbn; rewrite F2, F3; reflexivity|].
  split; [rewrite E2, orb_false_r; auto|]. intros K e. exists [KText (blank_text cur (c_start c)); KText t], e. split; [repeat constructor|]. apply E3.
Qed.
Lemma semit_ok x c (g : list stmt) r b : (forall s, sencode x s = semit g b r c s) -> is_eval x = b ->
  (forall e, exists its e', supplies g e its e' /\
   forall a K, string_mean x (a, K, e) = (c_end c, K ++ [KText (blank_text a (c_start c)); KItems its], e')) -> string_ok x.
Proof.
  intros E1 E2 E3 s cur C. rewrite E1. unfold semit.
  destruct (sflush (Some (c_start c)) (Some (c_end c)) s) as [s1|] eqn:F; [|exact I]. cbn [bind s_cursor s_stream s_buf s_has_eval].
  destruct (sflush_ok _ _ _ _ _ C F) as (F1 & F2 & F3 & F4 & F5).
  exists (c_end c), [CText (blank_text cur (c_start c)); CCode g]. split; [auto|]. split; [cbn; rewrite F2, F3, <- app_assoc; reflexivity|].
  split; [rewrite E2, F4; auto|]. intros K e. destruct (E3 e) as (its & e' & S & M).
  exists [KText (blank_text cur (c_start c)); KItems its], e'. split; [repeat econstructor; eauto|]. apply M.
Qed.
Lemma sfold_ok ps : Forall string_ok ps -> forall (s : sencoder LI E) cur, s_cursor s = Some cur ->
  match fold_opt sencode ps s with
  | Some s' => exists cur' (ks : list cchunk), s_cursor s' = Some cur' /\
      (s_stream s', s_buf s') = chunks_run ks (s_stream s, s_buf s) /\
      s_has_eval s' = s_has_eval s || existsb is_eval ps /\
      forall K e, exists cs e', says ks e cs e' /\ fold_left (fun st x => string_mean x st) ps (cur, K, e) = (cur', K ++ cs, e')
  | None => True
  end.
Proof.
  induction 1 as [|x ps H F IH]; intros s cur C.
  - cbn. exists cur, []. split; auto. split; auto. split; [rewrite orb_false_r; auto|]. intros K e. exists [], e. split; [constructor|]. rewrite app_nil_r. reflexivity.
  - cbn [fold_opt]. specialize (H s cur C). destruct (sencode x s) as [s1|]; [|exact I].
    destruct H as (w1 & ks1 & A1 & C1 & V1 & M1). specialize (IH s1 w1 A1).
    change ((fix go (l : list (string_item LI E)) (s0 : sencoder LI E) {struct l} := _) ps s1) with (fold_opt sencode ps s1) in *.
    destruct (fold_opt sencode ps s1) as [s2|]; [|exact I].
    destruct IH as (w2 & ks2 & A2 & C2 & V2 & M2). exists w2, (ks1 ++ ks2). split; auto.
    split; [rewrite chunks_run_app, <- C1; auto|]. split; [rewrite V2, V1; cbn; rewrite orb_assoc; reflexivity|].
    intros K e. destruct (M1 K e) as (cs1 & e1 & S1 & Q1). destruct (M2 (K ++ cs1) e1) as (cs2 & e2 & S2 & Q2).
    exists (cs1 ++ cs2), e2. split; [eapply says_app; eauto|]. cbn [fold_left]. rewrite Q1, Q2, <- app_assoc. reflexivity.
Qed.
Lemma string_done ps paren r : Forall string_ok ps ->
  bind (fold_opt sencode ps (sencoder_new (inner_start paren))) (sflush (Some (inner_end paren)) None) = Some r ->
  s_has_eval r = existsb is_eval ps /\
  forall e, let '(a, K, e') := fold_left (fun st x => string_mean x st) ps (inner_start paren, [], e) in
    supplies (s_stream r) e (join_texts [] (K ++ [KText (blank_text a (inner_end paren))])) e'.
Proof.
  intros F H. pose proof (sfold_ok ps F (sencoder_new (inner_start paren)) _ eq_refl) as FO.
  destruct (fold_opt sencode ps _) as [s1|]; [|discriminate]. cbn [bind] in H.
  destruct FO as (cur & ks & C & CC & V & M). destruct (sflush_ok _ _ _ _ _ C H) as (F1 & F2 & F3 & F4 & F5).
  split; [rewrite F4, V; reflexivity|]. intros e. destruct (M [] e) as (cs & e' & S & Q). cbn [app] in Q. rewrite Q.
  assert (S2 : says (ks ++ [CText (blank_text cur (inner_end paren))]) e (cs ++ [KText (blank_text cur (inner_end paren))]) e').
  { eapply says_app; eauto. repeat constructor. }
  pose proof (says_supplies _ _ _ _ S2 []) as SS.
  assert (C2 : (s_stream s1, s_buf s1 ++ blank_text cur (inner_end paren)) = chunks_run (ks ++ [CText (blank_text cur (inner_end paren))]) ([], [])).
  { rewrite chunks_run_app. transitivity (chunks_run [CText (blank_text cur (inner_end paren))] (s_stream s1, s_buf s1)); [reflexivity|].
    f_equal. exact CC. }
  pose proof (chunks_flush _ _ _ _ C2) as CO. cbn [fst snd app] in CO. rewrite F2, CO. exact SS.
Qed.

(** ** Loops *)
Lemma for_ok (body : list stmt) (m : E -> list (item LI) * E) : (forall e, supplies body e (fst (m e)) (snd (m e))) ->
  forall bs e t, fold_state (fun b st => execs body (b (fst st), snd st)) bs (e, t) =
    (snd (loop_mean m (fun e => ([], e)) bs e), extend (fst (loop_mean m (fun e => ([], e)) bs e)) t).
Proof.
  intros H. induction bs as [|b bs IH]; intros e t; [reflexivity|]. cbn [fold_state loop_mean fst snd].
  change ((fix go (l : list (E -> E)) (st : E * tokens LI) {struct l} := _) bs) with (fold_state (fun b st => execs body (b (fst st), snd st)) bs) in *.
  rewrite H. destruct (m (b e)) as [its e1]. cbn [fst snd]. destruct bs as [|b2 bs].
  - cbn [loop_mean fold_state fst snd]. rewrite !app_nil_r. reflexivity.
  - rewrite IH. destruct (loop_mean m (fun e => ([], e)) (b2 :: bs) e1) as [rest e2]. cbn [fst snd app]. rewrite extend_app. reflexivity.
Qed.
Lemma for_join_ok (body join : list stmt) (m j : E -> list (item LI) * E) : (forall e, supplies body e (fst (m e)) (snd (m e))) ->
  (forall e, supplies join e (fst (j e)) (snd (j e))) ->
  forall bs e t, join_loop (execs body) (execs join) bs (e, t) =
    (snd (loop_mean m j bs e), extend (fst (loop_mean m j bs e)) t).
Proof.
  intros H J. induction bs as [|b bs IH]; intros e t; [reflexivity|]. cbn [join_loop loop_mean fst snd].
  change ((fix go (l : list (E -> E)) (st : E * tokens LI) {struct l} := _) bs) with (join_loop (execs body) (execs join) bs) in *.
  rewrite H. destruct (m (b e)) as [its e1]. cbn [fst snd]. destruct bs as [|b2 bs].
  - cbn [loop_mean join_loop fst snd]. rewrite !app_nil_r. reflexivity.
  - rewrite J. destruct (j e1) as [sep e2]. cbn [fst snd]. rewrite IH.
    destruct (loop_mean m j (b2 :: bs) e2) as [rest e3]. cbn [fst snd]. rewrite !extend_app. reflexivity.
Qed.
Definition pick_code (e : E) (t : tokens LI) := fix pick (arms : list (list stmt)) (i : nat) : E * tokens LI :=
  match arms, i with
  | a :: _, O => execs a (e, t)
  | _ :: arms', S i' => pick arms' i'
  | [], _ => (e, t)
  end.
Definition pick_mean (e : E) := fix pick (arms : list (option cursor * list quoted)) (i : nat) : list (item LI) * E :=
  match arms, i with
  | (paren, qs) :: _, O => block_mean_with mean paren qs e
  | _ :: arms', S i' => pick arms' i'
  | [], _ => ([], e)
  end.
Definition arm_step (arm : option cursor * list quoted) (acc : bool * list (list stmt)) : option (bool * list (list stmt)) :=
  let '(paren, qs) := arm in
  bind (block_with encode paren qs) (fun r => Some (fst acc || fst r, snd acc ++ [snd r])).
Definition arm_ok (arm : option cursor * list quoted) (code : list stmt) : Prop := forall e,
  supplies code e (fst (block_mean_with mean (fst arm) (snd arm) e)) (snd (block_mean_with mean (fst arm) (snd arm) e)).
Lemma arms_ok arms : Forall (fun a => block_ok (snd a)) arms -> forall acc r, fold_opt arm_step arms acc = Some r ->
  exists codes, snd r = snd acc ++ codes /\ Forall2 arm_ok arms codes.
Proof.
  induction 1 as [|[paren qs] arms H F IH]; intros acc r R.
  - cbn in R. injection R as <-. exists []. rewrite app_nil_r. auto.
  - cbn [fold_opt arm_step] in R. change ((fix go (l : list (option cursor * list quoted)) (s0 : bool * list (list stmt)) {struct l} := _) arms) with (fold_opt arm_step arms) in R.
    destruct (block_with encode paren qs) as [[r1 c1]|] eqn:B; [|discriminate]. cbn [bind fst snd] in R.
    destruct (IH _ _ R) as (codes & Q & F2). exists (c1 :: codes). cbn [snd] in Q. rewrite Q, <- app_assoc. split; [reflexivity|].
    constructor; auto. intros e. exact (H _ _ _ B e).
Qed.
Lemma pick_ok arms codes : Forall2 arm_ok arms codes -> forall i e t,
  pick_code e t codes i = (snd (pick_mean e arms i), extend (fst (pick_mean e arms i)) t).
Proof.
  induction 1 as [|[paren qs] c arms codes H F IH]; intros i e t; [destruct i; reflexivity|].
  destruct i as [|i]; cbn [pick_code pick_mean]; [apply H|apply IH].
Qed.

(** ** All elements *)
Lemma encode_string c paren ps s : @encode LI E (QString c paren ps) s =
  bind (bind (fold_opt sencode ps (sencoder_new (inner_start paren)))
                 (sflush (Some (inner_end paren)) None)) (fun r =>
      bind (step c (require (s_req r) s)) (fun s =>
        Some (emit (SItem (OpenQuote (s_has_eval r)) :: s_stream r ++ [SItem CloseQuote])
                (flush (require (s_has_eval r) s))))).
Proof. reflexivity. Qed.
Lemma span_eval c (qs : list quoted) : content_span c qs = eval_span c qs.
Proof. destruct qs as [|[] qs]; reflexivity. Qed.
Lemma encode_eval c qs s : @sencode LI E (PEval c qs) s =
  bind (block_with encode (Some (eval_span c qs)) qs) (fun r =>
        semit (SItem OpenEval :: snd r ++ [SItem CloseEval]) true (fst r) c s).
Proof. rewrite <- span_eval. reflexivity. Qed.
Lemma mean_string c paren ps st : @mean LI E (QString c paren ps) st =
  let st := enter_chunks c st in
      let '(at_, chunks, e) :=
        fold_left (fun st x => string_mean x st) ps (inner_start paren, [], m_env st) in
      put_items
        (OpenQuote (existsb is_eval ps) ::
           join_texts [] (chunks ++ [KText (blank_text at_ (inner_end paren))]) ++ [CloseQuote], e) st.
Proof. reflexivity. Qed.
Lemma mean_eval c qs at_ chunks e : @string_mean LI E (PEval c qs) (at_, chunks, e) =
  let '(its, e) := block_mean_with mean (Some (eval_span c qs)) qs e in
      (c_end c, chunks ++ [KText (blank_text at_ (c_start c));
                           KItems (OpenEval :: its ++ [CloseEval])], e).
Proof. reflexivity. Qed.
Theorem elements : (forall x : quoted, item_ok x) /\ (forall x : string_item LI E, string_ok x).
Proof.
  assert (FB : forall qs, Forall item_ok qs -> block_ok qs) by exact blocks.
  apply quoted_string_ind.
  - intros c s. apply (text_ok _ c s); reflexivity.
  - intros c. apply (text_ok _ c $"$"); reflexivity.
  - intros c s. apply (text_ok _ c s); reflexivity.
  - intros c s. apply (code_ok _ c false [SItem (OpenQuote false); SAppend (fun e => (VItemStr (Static s), e)); SItem CloseQuote]).
    + intros s'. rewrite require_false. reflexivity.
    + intros e. exists [OpenQuote false; Literal (Static s); CloseQuote], e. split; [intros t; reflexivity|].
      intros w K. cbn [mean]. unfold put, put_items. cbn [fst snd]. rewrite enter_env. reflexivity.
  - (* a group *)
    intros c d qs F s w AT. cbn [encode]. destruct (step (first_character c) s) as [s1|] eqn:ST1; [|exact I]. cbn [bind].
    destruct (enter_ok _ _ _ _ AT ST1) as (w1 & ks1 & A1 & SE1 & C1 & M1).
    pose proof (fold_ok qs F (buffer_push (open_char d) s1) w1 (at_push _ _ _ A1)) as FO.
    destruct (fold_opt encode qs (buffer_push (open_char d) s1)) as [s2|]; [|exact I]. cbn [bind].
    destruct FO as (w2 & ks2 & A2 & SE2 & C2 & M2).
    destruct (step (last_character c) s2) as [s3|] eqn:ST3; [|exact I]. cbn [bind].
    destruct (enter_ok _ _ _ _ A2 ST3) as (w3 & ks3 & A3 & SE3 & C3 & M3).
    exists w3, (ks1 ++ [CText (open_char d)] ++ ks2 ++ ks3 ++ [CText (close_char d)]).
    split; [apply at_push; auto|]. split; [cbn; rewrite SE3, SE2; exact SE1|]. split.
    { rewrite !chunks_run_app. rewrite <- C1. 
      change (chunks_run [CText (open_char d)] (code_of s1)) with (code_of (buffer_push (open_char d) s1)). rewrite <- C2, <- C3. reflexivity. }
    intros K e. destruct (M1 K e) as (cs1 & S1 & Q1).
    destruct (M2 ((K ++ cs1) ++ [KText (open_char d)]) e) as (cs2 & e2 & S2 & Q2).
    destruct (M3 (((K ++ cs1) ++ [KText (open_char d)]) ++ cs2) e2) as (cs3 & S3 & Q3).
    exists (cs1 ++ [KText (open_char d)] ++ cs2 ++ cs3 ++ [KText (close_char d)]), e2. split.
    { eapply says_app; eauto. eapply says_app; [repeat constructor|]. eapply says_app; eauto. eapply says_app; eauto. repeat constructor. }
    cbn [mean]. change (opener_at c) with (first_character c). change (closer_at c) with (last_character c).
    change (opener d) with (open_char d). change (closer d) with (close_char d). rewrite Q1. unfold put at 2. cbn [m_place m_chunks m_env]. rewrite Q2, Q3. unfold put. cbn [m_place m_chunks m_env].
    rewrite <- !app_assoc. reflexivity.
  - (* a string *)
    intros c paren ps F s w AT.
    destruct (bind (fold_opt sencode ps (sencoder_new (inner_start paren))) (sflush (Some (inner_end paren)) None)) as [r|] eqn:R; [|rewrite encode_string, R; exact I].
    destruct (string_done ps paren r F R) as [HE HS].
    assert (EX : forall s', encode (QString c paren ps) s' = bind (step c (require (s_req r) s')) (fun s =>
        Some (emit (SItem (OpenQuote (s_has_eval r)) :: s_stream r ++ [SItem CloseQuote])
                (flush (require (s_has_eval r) s))))).
    { intros s'. rewrite encode_string, R. reflexivity. }
    revert s w AT. change (item_ok (QString c paren ps)).
    apply (leaf_ok _ c (s_req r) (fun s => emit (SItem (OpenQuote (s_has_eval r)) :: s_stream r ++ [SItem CloseQuote]) (flush (require (s_has_eval r) s)))
      (CCode (SItem (OpenQuote (s_has_eval r)) :: s_stream r ++ [SItem CloseQuote]))).
    + exact EX.
    + intros. apply at_emit, at_flush, at_require; auto.
    + intros. etransitivity; [apply end_flush|reflexivity].
    + intros s'. rewrite flush_emit. reflexivity.
    + intros e. specialize (HS e). destruct (fold_left _ ps _) as [[a K] e'] eqn:FE.
      exists [KItems (OpenQuote (existsb is_eval ps) :: join_texts [] (K ++ [KText (blank_text a (inner_end paren))]) ++ [CloseQuote])], e'.
      split.
      { econstructor; [|constructor]. rewrite HE. change (?x :: ?l ++ ?m) with ([x] ++ l ++ m). eapply supplies_app; [apply supplies_item|].
        eapply supplies_app; [exact HS|]. apply supplies_item. }
      intros w K'. rewrite mean_string. cbv zeta. rewrite enter_env, FE. reflexivity.
  - intros c k. apply (code_ok _ c false [control_stmt k]).
    + intros s. rewrite require_false. reflexivity.
    + intros e. exists [match k with KSpace => Space | KPush => Push | KLine => Line end], e. split; [destruct k; intros t; reflexivity|].
      intros w K. cbn [mean]. unfold put, put_items. cbn [fst snd]. rewrite enter_env. reflexivity.
  - intros c v. apply (code_ok _ c false [SAppend v]).
    + intros s. rewrite require_false. reflexivity.
    + intros e. exists (parts (fst (v e))), (snd (v e)). split; [apply supplies_append|].
      intros w K. cbn [mean]. rewrite enter_env. destruct (v e). reflexivity.
  - intros c v. apply (code_ok _ c false [SCode v]).
    + intros s. rewrite require_false. reflexivity.
    + intros e. exists (flat_map call_parts (fst (v e))), (snd (v e)). split; [apply supplies_code|].
      intros w K. cbn [mean]. rewrite enter_env. destruct (v e). reflexivity.
  - intros c f. apply (leaf_ok _ c false (emit [SEffect f]) (CEffect f)).
    + intros s. rewrite require_false. reflexivity.
    + intros. apply at_emit; auto.
    + reflexivity.
    + reflexivity.
    + intros e. exists [], (f e). split; [repeat constructor|]. intros w K. cbn [mean]. rewrite enter_env, app_nil_r. reflexivity.
  - (* a loop *)
    intros c it join body FJ F s w AT. apply FB in F.
    destruct join as [[paren js]|].
    + apply FB in FJ. cbn [encode]. destruct (block_with encode (Some paren) js) as [[jr jc]|] eqn:BJ; [|exact I]. cbn [bind].
      destruct (block_with encode None body) as [[br bc]|] eqn:BB; [|exact I]. cbn [bind fst snd].
      assert (OK : item_ok (QLoop c it (Some (paren, js)) body)).
      { apply (code_ok _ c (jr || br) [SForJoin it bc jc]).
        - intros s'. cbn [encode]. rewrite BJ. cbn [bind]. rewrite BB. reflexivity.
        - intros e. destruct (it e) as [bs e1] eqn:IT.
          exists (fst (loop_mean (block_mean_with mean None body) (block_mean_with mean (Some paren) js) bs e1)),
                 (snd (loop_mean (block_mean_with mean None body) (block_mean_with mean (Some paren) js) bs e1)).
          split.
          + intros t. cbn [execs fold_state exec fst snd]. rewrite IT.
            apply (for_join_ok bc jc); [exact (F _ _ _ BB)|exact (FJ _ _ _ BJ)].
          + intros w' K. cbn [mean]. rewrite enter_env, IT. destruct (loop_mean _ _ bs e1); reflexivity. }
      specialize (OK s w AT). cbn [encode] in OK. rewrite BJ in OK. cbn [bind] in OK. rewrite BB in OK. exact OK.
    + cbn [encode bind]. destruct (block_with encode None body) as [[br bc]|] eqn:BB; [|exact I]. cbn [bind fst snd].
      assert (OK : item_ok (QLoop c it None body)).
      { apply (code_ok _ c (false || br) [SFor it bc]).
        - intros s'. cbn [encode bind]. rewrite BB. reflexivity.
        - intros e. destruct (it e) as [bs e1] eqn:IT.
          exists (fst (loop_mean (block_mean_with mean None body) (fun e => ([], e)) bs e1)),
                 (snd (loop_mean (block_mean_with mean None body) (fun e => ([], e)) bs e1)).
          split.
          + intros t. cbn [execs fold_state exec fst snd]. rewrite IT.
            apply (for_ok bc); exact (F _ _ _ BB).
          + intros w' K. cbn [mean]. rewrite enter_env, IT. destruct (loop_mean _ _ bs e1); reflexivity. }
      specialize (OK s w AT). cbn [encode bind] in OK. rewrite BB in OK. exact OK.
  - (* if *)
    intros c cond a b FA FBb s w AT. apply FB in FA.
    destruct (block_with encode None a) as [[ar ac]|] eqn:BA; [|cbn [encode]; rewrite BA; exact I].
    destruct (match b with Some qs => bind (block_with encode None qs) (fun r => Some (Some r)) | None => Some None end) as [bo|] eqn:BO;
      [|cbn [encode]; rewrite BA; cbn [bind]; rewrite BO; exact I].
    revert s w AT. change (item_ok (QIf c cond a b)).
    apply (code_ok _ c (ar || match bo with Some (r, _) => r | None => false end) [SIf cond ac (option_map snd bo)]).
    + intros s'. cbn [encode]. rewrite BA. cbn [bind]. rewrite BO. reflexivity.
    + intros e. destruct (cond e) as [yes e1] eqn:CE.
      set (R := if yes : bool then block_mean_with mean None a e1 else match b with Some b => block_mean_with mean None b e1 | None => ([], e1) end).
      exists (fst R), (snd R). split.
      * intros t. cbn [execs fold_state exec fst snd]. rewrite CE. unfold R. destruct yes; [exact (FA _ _ _ BA e1 t)|].
        destruct b as [b|].
        -- destruct (block_with encode None b) as [[br bc]|] eqn:BB; [|discriminate]. cbn [bind] in BO. injection BO as <-. cbn [option_map snd].
           exact (FB _ FBb _ _ _ BB e1 t).
        -- injection BO as <-. reflexivity.
      * intros w K. cbn [mean]. rewrite enter_env, CE. unfold R. destruct yes; [destruct (block_mean_with mean None a e1)|destruct b; [destruct (block_mean_with mean None l e1)|]]; reflexivity.
  - (* match *)
    intros c sel arms F s w AT.
    assert (F' : Forall (fun a => block_ok (snd a)) arms) by (eapply Forall_impl; [|exact F]; intros; apply FB; auto).
    destruct (fold_opt arm_step arms (false, [])) as [r|] eqn:R; [|cbn [encode]; unfold arm_step in R; rewrite R; exact I].
    destruct (arms_ok arms F' _ _ R) as (codes & Q & F2). cbn [snd app] in Q.
    revert s w AT. change (item_ok (QMatch c sel arms)).
    apply (code_ok _ c (fst r) [SMatch sel (snd r)]).
    + intros s'. cbn [encode]. unfold arm_step in R. rewrite R. reflexivity.
    + intros e. destruct (sel e) as [i e1] eqn:SE. exists (fst (pick_mean e1 arms i)), (snd (pick_mean e1 arms i)). split.
      * intros t. cbn [execs fold_state exec fst snd]. rewrite SE, Q. exact (pick_ok arms codes F2 i e1 t).
      * intros w K. cbn [mean]. rewrite enter_env, SE. rewrite <- surjective_pairing. reflexivity.
  - intros c f. apply (code_ok _ c false [SLet f]).
    + intros s. rewrite require_false. reflexivity.
    + intros e. exists [], (f e). split; [intros t; reflexivity|]. intros w K. cbn [mean]. rewrite enter_env. reflexivity.
  - intros c s. apply (str_ok _ c s); reflexivity.
  - intros c. apply (str_ok _ c $"$"); reflexivity.
  - intros c s. apply (str_ok _ c s); reflexivity.
  - intros c v. apply (semit_ok _ c [SAppend v] false false); [reflexivity|reflexivity|].
    intros e. exists (parts (fst (v e))), (snd (v e)). split; [apply supplies_append|]. intros a K. cbn [string_mean]. destruct (v e). reflexivity.
  - intros c n. apply (semit_ok _ c [SItem OpenEval; SItem (Literal (Static n)); SItem CloseEval] false true); [reflexivity|reflexivity|].
    intros e. exists [OpenEval; Literal (Static n); CloseEval], e. split; [intros t; reflexivity|]. reflexivity.
  - intros c qs F s cur C. apply FB in F. destruct (block_with encode (Some (eval_span c qs)) qs) as [[r code]|] eqn:B; [|rewrite encode_eval, B; exact I].
    revert s cur C. change (string_ok (PEval c qs)).
    apply (semit_ok _ c (SItem OpenEval :: code ++ [SItem CloseEval]) r true); [intros s; rewrite encode_eval, B; reflexivity|reflexivity|].
    intros e. pose proof (F _ _ _ B e) as S. destruct (block_mean_with mean (Some (eval_span c qs)) qs e) as [its e'] eqn:BM. cbn [fst snd] in S.
    exists (OpenEval :: its ++ [CloseEval]), e'. split.
    + change (?x :: ?l ++ ?m) with ([x] ++ l ++ m). eapply supplies_app; [apply supplies_item|]. eapply supplies_app; [exact S|apply supplies_item].
    + intros a K. rewrite mean_eval, BM. reflexivity.
Qed.

Theorem all_blocks qs : block_ok qs.
Proof. apply blocks. apply Forall_forall. intros x _. apply elements. Qed.
Theorem quote_supplies qs r code : quote_code qs = Some (r, code) -> forall e,
  supplies code e (fst (@quote_mean LI E qs e)) (snd (quote_mean qs e)).
Proof. intros H e. exact (all_blocks qs None r code H e). Qed.
End Sem.
