(** * Lemmas: programs with interpolated code. *)
From Verif Require Import Str StrFacts SpecStr Tokens SpecTokens TokensRun TokensFacts Values Fmt SpecFmt RenderFacts Macro SpecMacro MacroFacts SpecWords Parse SpecParse
  SpecFile SpecLex SpecReread RespaceFacts RereadFacts RoundsFacts LangRust SpecRust SpecProgram.

(** ** String literals *)
Lemma emit_rest v r vs rest : SpecLex.emit v r = Some (vs, rest) -> exists vs', r = Some (vs', rest) /\ vs = v ++ vs'.
Proof. destruct r as [[a b]|]; [|discriminate]. intros H. injection H as <- <-. eauto. Qed.
Lemma emit_opt_rest v r vs rest : emit_opt v r = Some (vs, rest) -> exists v' vs', v = Some v' /\ r = Some (vs', rest) /\ vs = v' ++ vs'.
Proof. destruct v as [v|]; [|discriminate]. intros H. apply emit_rest in H as (vs' & ? & ?). eauto. Qed.
Ltac lex_cases H :=
  repeat match type of H with
  | emit_opt _ _ = Some _ => apply emit_opt_rest in H as (? & ? & ? & H & ->)
  | (if ?b then _ else _) = Some _ => destruct b eqn:?
  | (match ?x with Some _ => _ | None => _ end) = Some _ => destruct x eqn:?
  | None = Some _ => discriminate H
  end.
Lemma lex_shorter g : forall s m v rest, lex g m s = Some (v, rest) ->
  length rest <= length s /\ (m <> MText -> length rest < length s).
Proof.
  induction s as [|c s IH]; intros m v rest H; [discriminate|]. cbn [lex] in H.
  destruct m; lex_cases H; try (injection H as <- <-; split; [lia|congruence]); apply IH in H as [H _]; cbn [length]; split; intros; lia.
Qed.
Lemma lex_local g r r' : (forall c n n', g_stop g c n = g_stop g c n') -> forall y m v,
  lex g m (y ++ 34%N :: r) = Some (v, 34%N :: r) -> lex g m (y ++ 34%N :: r') = Some (v, 34%N :: r').
Proof.
  intros ST. induction y as [|c y IH]; intros m v H.
  - cbn [app] in *. destruct m; try (apply lex_shorter in H as [_ H]; exfalso; specialize (H ltac:(discriminate)); lia).
    cbn [lex] in *. rewrite (ST _ _ (hd_error r)). destruct (g_stop g 34%N (hd_error r)); [injection H as <-; reflexivity|].
    exfalso. cbv zeta in H. lex_cases H; apply lex_shorter in H as [H _]; cbn [length] in H; lia.
  - cbn [app lex] in *. assert (HD : hd_error (y ++ 34%N :: r') = hd_error (y ++ 34%N :: r)) by (destruct y; reflexivity).
    rewrite HD. cbv zeta in *.
    destruct m; lex_cases H; try (exfalso; apply (f_equal (fun o => match o with Some (_, t) => length t | None => 0 end)) in H; cbn [length] in H; rewrite app_length in H; cbn [length] in H; lia);
      rewrite ?(IH _ _ H); try reflexivity; repeat match goal with H0 : _ = Some _ |- _ => rewrite H0; clear H0 end; reflexivity.
Qed.
Lemma token_local_in g : (forall c n n', g_stop g c n = g_stop g c n') -> forall w k r, read_token g (w ++ r) = Some (k, r) -> w <> [] ->
  forall r', alike r r' -> read_token g (w ++ r') = Some (k, r').
Proof.
  intros ST w k r H N r' A. destruct (is_string k) eqn:S.
  - destruct k; try discriminate. destruct (read_string_text _ _ _ _ H) as [y Y]. destruct w as [|c w]; [congruence|]. cbn [app] in Y. injection Y as -> Y. clear y Y.
    cbn [app read_token] in *. cbn [read_literal N.eqb Pos.eqb] in *.
    destruct (lex g MText (w ++ r)) as [[v' [|c' rest]]|] eqn:L; try discriminate.
    destruct (N.eqb_spec c' 34) as [->|]; [|discriminate]. injection H as -> ->.
    assert (X : exists y, w = y ++ [34%N]).
    { assert (SP : forall s m v0 t0, lex g m s = Some (v0, t0) -> exists y, s = y ++ t0).
      { clear. induction s as [|c s IH]; intros m v0 t0 H; [discriminate|]. cbn [lex] in H. cbv zeta in H.
        destruct m; lex_cases H; try (injection H as <- <-; exists []; reflexivity); apply IH in H as [y ->]; exists (c :: y); reflexivity. }
      destruct (SP _ _ _ _ L) as [y Y]. exists y. change (34%N :: r) with ([34%N] ++ r) in Y. rewrite app_assoc in Y. apply app_inv_tail in Y. exact Y. }
    destruct X as [y ->]. rewrite <- app_assoc in *. cbn [app] in *. rewrite (lex_local g r r' ST _ _ _ L). reflexivity.
  - destruct (read_local g g _ _ _ H S) as (E & _ & _ & L). apply app_inv_tail in E. subst w. apply L. exact A.
Qed.
Definition token_local := token_local_in rust_grammar (fun _ _ _ => eq_refl).
Lemma read_dark g w r k : w <> [] -> read_token g (w ++ r) = Some (k, r) -> starts_dark w.
Proof.
  destruct w as [|c w]; [congruence|]. intros _ H. cbn [starts_dark]. destruct (is_white c) eqn:W; [|reflexivity]. exfalso.
  apply white_cases in W as [->|[->|[->| ->]]]; discriminate H.
Qed.

(** ** Values *)
Notation rg := rust_grammar.
Lemma over_consists_in g : (forall c n n', g_stop g c n = g_stop g c n') -> forall v r K, reads_over g v r K -> forall r' L, alike r r' -> consists g r' L ->
  exists L', consists g (v ++ r') L' /\ map fst L' = K ++ map fst L.
Proof.
  intros ST. induction 1 as [r|c v r K W H IH|w v r k K NE RT H IH]; intros r' L A C.
  - exists L. auto.
  - destruct (IH _ _ A C) as (L' & C' & M). exists L'. split; [constructor; auto|exact M].
  - destruct (IH _ _ A C) as (L' & C' & M). exists ((k, w) :: L'). split; [|cbn; rewrite M; reflexivity].
    rewrite <- app_assoc. constructor; [eapply read_dark; eauto| |exact C']. apply (token_local_in g ST _ _ (v ++ r)); auto. apply alike_app. exact A.
Qed.
Definition over_consists := over_consists_in rg (fun _ _ _ => eq_refl).
Lemma over_app a b r K1 K2 : reads_over rg a (b ++ r) K1 -> reads_over rg b r K2 -> reads_over rg (a ++ b) r (K1 ++ K2).
Proof.
  intros H. remember (b ++ r) as t eqn:T. induction H as [t|c v t K W H IH|w v t k K NE RT H IH]; subst; intros H2; cbn [app].
  - exact H2.
  - constructor; auto.
  - rewrite <- app_assoc. constructor; auto. rewrite <- app_assoc. exact RT.
Qed.
Lemma over_blank b r : all_white b -> reads_over rg b r [].
Proof. induction 1; constructor; auto. Qed.

(** ** Programs *)
Definition out_word (lit : str -> str) (x : str * slot) : str :=
  match snd x with Code (WString v) => lit v | Code _ => fst x | Value v => v end.
Definition slot_fine (ok : str -> Prop) (x : slot) : Prop := match x with Code (WString v) => ok v | _ => True end.

Lemma filled_written p s l s' K : filled rg p s l s' K -> written p s (map (fun x => (fst x, fst (snd x))) l).
Proof.
  induction 1 as [p|p c s l s' K W H IH|p w k s l s' K NE RT H IH|p w v s l s' Kv K OV H IH]; cbn [map fst snd].
  - constructor.
  - apply written_white; auto.
  - apply written_token; auto.
  - apply written_token; [discriminate|auto].
Qed.
Lemma filled_consists p s l s' K : filled rg p s l s' K -> exists L, consists rg s' L /\ map fst L = K.
Proof.
  induction 1 as [p|p c s l s' K W H (L & C & M)|p w k s l s' K NE RT H (L & C & M)|p w v s l s' Kv K OV H (L & C & M)].
  - exists []. split; [constructor|reflexivity].
  - exists L. split; [constructor; auto|exact M].
  - exists ((k, w) :: L). split; [constructor; auto; eapply read_dark; eauto|cbn; rewrite M; reflexivity].
  - subst K. apply (over_consists _ _ _ OV s' L); [|exact C]. rewrite <- (app_nil_r s'). apply alike_app. constructor; constructor.
Qed.

(** The source, and what is left of it after white space, a word. *)
Lemma filled_strip b : forall p s l s' K, all_white b -> filled rg p (b ++ s) l s' K -> exists q s1, s' = b ++ s1 /\ filled rg q s l s1 K.
Proof.
  induction b as [|c b IH]; intros p s l s' K W F; [exists p, s'; auto|]. inversion W as [|? ? W1 W2]; subst. cbn [app] in F.
  remember (c :: b ++ s) as u eqn:E0. destruct F as [p|p d t l t' K _ H|p w k t l t' K NE RT H|p w v t l t' Kv K OV H]; [discriminate|injection E0 as -> ->| |].
  - destruct (IH _ _ _ _ _ W2 H) as (q & s1 & -> & F1). exists q, s1. auto.
  - exfalso. pose proof (read_dark _ _ _ _ NE RT) as D. destruct w as [|d w]; [congruence|]. injection E0 as -> _. cbn in D. congruence.
  - exfalso. cbn [app] in E0. injection E0 as <- _. discriminate W1.
Qed.

Lemma filled_dark p s l s' K : filled rg p s l s' K -> Forall (fun x => starts_dark (fst (snd x))) l.
Proof. induction 1; auto; constructor; auto; [eapply read_dark; eauto|reflexivity]. Qed.

Section Same.
Context (lit : str -> str) (ok : str -> Prop).
Hypothesis lit_quote : forall v, exists r, lit v = 34%N :: r.
Hypothesis lit_reads : forall v rest, ok v -> read_literal rg (lit v ++ rest) = Some (v, rest).
Lemma filled_same l : forall p s s' K out, filled rg p s l s' K -> Forall (fun x => slot_fine ok (snd (snd x))) l ->
  respaced (map (fun x => (fst (snd x), out_word lit (snd x))) l) s out ->
  alike s' out /\ exists L, consists rg out L /\ map fst L = K.
Proof.
  induction l as [|[c [w x]] l IH]; intros p s s' K out F OK R; cbn [map fst snd] in *.
  - inversion R as [b b' B B'|]; subst. rewrite <- (app_nil_r s) in F. destruct (filled_strip s _ _ _ _ _ B F) as (q & s1 & -> & F1).
    inversion F1; subst. rewrite app_nil_r. split; [apply alike_white; [destruct B|destruct B']; cbn; auto|]. exists []. split; [apply consists_blank; auto|reflexivity].
  - inversion R as [|b b' w0 w0' ws t t' B B' BB RS]; subst. inversion OK as [|? ? O1 O2]; subst. cbn [snd] in O1.
    destruct (filled_strip _ _ _ _ _ _ B F) as (q & s1 & -> & F1). clear F.
    assert (X : exists q' sr K1 K2, filled rg q' t l sr K2 /\ K = K1 ++ K2 /\
              (forall L, alike sr t' -> consists rg t' L -> alike s1 (out_word lit (w, x) ++ t') /\ exists L', consists rg (out_word lit (w, x) ++ t') L' /\ map fst L' = K1 ++ map fst L)).
    { pose proof (filled_dark _ _ _ _ _ F1) as D. inversion D as [|? ? D1 _]; subst. cbn [fst snd] in D1.
      remember (w ++ t) as u eqn:E0. remember ((c, (w, x)) :: l) as l1 eqn:E1.
      destruct F1 as [q|q d t0 l0 t1 K W H|q w1 k t0 l0 t1 K1 NE RT H|q w1 v t0 l0 t1 Kv K1 OV H]; [discriminate E1| |injection E1 as _ Ew Ex El; subst w1 x l0|injection E1 as _ Ew Ex El; subst w x l0].
      - exfalso. destruct w as [|d' w]; [contradiction|]. injection E0 as -> _. cbn in D1. congruence.
      - apply app_inv_head in E0. subst t0. exists (advance q w), t1, [k], K1. split; [exact H|]. split; [reflexivity|]. intros L A C.
        destruct (is_string k) eqn:S.
        + destruct k; try discriminate. cbn [out_word snd slot_fine] in *. destruct (lit_quote v) as [y Y]. destruct (read_string_text _ _ _ _ RT) as [y' Y'].
          rewrite Y'. split; [rewrite Y; cbn [app]; apply alike_quote|]. exists ((WString v, lit v) :: L). split; [|reflexivity].
          constructor; [rewrite Y; reflexivity| |exact C]. pose proof (lit_reads v t' O1) as LR. rewrite Y in *. cbn [app read_token]. cbn [app] in LR. rewrite LR. reflexivity.
        + assert (OW : out_word lit (w, Code k) = w) by (destruct k; try discriminate; reflexivity). rewrite OW.
          split; [apply alike_app; exact A|]. exists ((k, w) :: L). split; [|reflexivity]. constructor; [exact D1| |exact C]. eapply token_local; eauto.
      - cbn [app] in E0. injection E0 as E0. apply app_inv_head in E0. subst t0. exists (advance q (36%N :: w1)), t1, Kv, K1. split; [exact H|]. split; [reflexivity|]. intros L A C.
        cbn [out_word snd]. split; [apply alike_app; exact A|]. apply (over_consists _ _ _ OV _ _ A C). }
    destruct X as (q' & sr & K1 & K2 & F2 & -> & X). destruct (IH _ _ _ _ _ F2 O2 RS) as (A & L & C & M). destruct (X L A C) as (A1 & L' & C' & M').
    split.
    + destruct b as [|d b].
      * rewrite (proj1 BB eq_refl). exact A1.
      * destruct b' as [|d' b']; [destruct BB as [_ BB]; discriminate (BB eq_refl)|]. inversion B; inversion B'; subst. apply alike_white; cbn; auto.
    + exists L'. split; [apply consists_prefix; assumption|]. rewrite M', M. reflexivity.
Qed.
End Same.

(** ** The imports of a quote *)
Section Imports.
Context {LI E : Type}.
Notation quoted := (quoted_item LI E).
Definition chunk_imports (k : @chunk LI) : list LI := match k with KText _ => [] | KItems its => imports_of its end.
Notation found st := (flat_map chunk_imports (m_chunks st)).
Lemma literal_imports s : imports_of (@literal LI s) = [].
Proof. destruct s; reflexivity. Qed.
Lemma join_imports cs : forall before, imports_of (@join_texts LI before cs) = flat_map chunk_imports cs.
Proof.
  induction cs as [|[s|its] cs IH]; intros before; cbn [join_texts flat_map chunk_imports app]; [apply literal_imports|apply IH|].
  rewrite !imports_app, literal_imports, IH. reflexivity.
Qed.
Lemma gap_imports p : imports_of (@gap_items LI p) = [].
Proof.
  unfold gap_items. destruct (Z.eqb (p_indent p) 0), (p_breaks p) as [|[|n]], (p_space p); reflexivity.
Qed.
Lemma enter_imports c (st : @mstate LI E) : found (enter_chunks c st) = found st /\ m_env (enter_chunks c st) = m_env st.
Proof.
  unfold enter_chunks. destruct (enter c (m_place st)) as [[p w]|]; [|auto]. cbn [m_chunks m_env]. split; [|reflexivity].
  rewrite flat_map_app. destruct (adjacent c (m_place st)); cbn; rewrite ?gap_imports, ?app_nil_r; reflexivity.
Qed.
Lemma put_imports k (st : @mstate LI E) : found (put k st) = found st ++ chunk_imports k.
Proof. unfold put. cbn [m_chunks]. rewrite flat_map_app. cbn. rewrite app_nil_r. reflexivity. Qed.
Lemma put_items_imports r (st : @mstate LI E) : found (put_items r st) = found st ++ imports_of (fst r).
Proof. unfold put_items. cbn [m_chunks]. rewrite flat_map_app. cbn. rewrite app_nil_r. reflexivity. Qed.

(** What an element that is no group supplies depends on the environment only. *)
Definition grouped (x : quoted) : bool := match x with QGroup _ _ _ => true | _ => false end.
Lemma mean_own (x : quoted) : grouped x = false -> forall e, exists its e', forall st, m_env st = e ->
  found (mean x st) = found st ++ its /\ m_env (mean x st) = e'.
Proof.
  assert (PI : forall c r (st : @mstate LI E), found (put_items r (enter_chunks c st)) = found st ++ imports_of (fst r) /\ m_env (put_items r (enter_chunks c st)) = snd r).
  { intros c r st. rewrite put_items_imports. destruct (enter_imports c st) as [-> _]. auto. }
  assert (PU : forall c k (st : @mstate LI E), found (put k (enter_chunks c st)) = found st ++ chunk_imports k /\ m_env (put k (enter_chunks c st)) = m_env st).
  { intros c k st. rewrite put_imports. destruct (enter_imports c st) as [-> EE]. auto. }
  assert (EN : forall c (st : @mstate LI E), m_env (enter_chunks c st) = m_env st) by (intros; apply enter_imports).
  intros G e. destruct x; try discriminate G.
  - eexists _, e. intros st <-. apply PU.
  - eexists _, e. intros st <-. apply PU.
  - eexists _, e. intros st <-. apply PU.
  - eexists _, e. intros st <-. apply PU.
  - destruct (fold_left (fun st x => string_mean x st) ps (after_open paren, [], e)) as [[at_ ch] e1] eqn:F.
    eexists _, _. intros st HE.
    change (mean (QString c paren ps) st) with
      (let st0 := enter_chunks c st in
       let '(at_, chunks, e) := fold_left (fun st x => string_mean x st) ps (after_open paren, [], m_env st0) in
       put_items (OpenQuote (existsb is_eval ps) :: join_texts [] (chunks ++ [KText (blank_text at_ (before_close paren))]) ++ [CloseQuote], e) st0).
    cbv zeta. rewrite EN, HE, F. apply PI.
  - eexists _, e. intros st <-. apply PU.
  - destruct (v e) as [w e1] eqn:F. eexists _, _. intros st HE. cbn [mean]. rewrite EN, HE, F. apply PI.
  - destruct (code e) as [w e1] eqn:F. eexists _, _. intros st HE. cbn [mean]. rewrite EN, HE, F. apply PI.
  - exists [], (f e). intros st HE. cbn [mean m_chunks m_env]. rewrite EN, HE, app_nil_r. split; [apply enter_imports|reflexivity].
  - destruct (it e) as [bs e1] eqn:F. eexists _, _. intros st HE. cbn [mean]. rewrite EN, HE, F. apply PI.
  - destruct (cond e) as [b1 e1] eqn:F. eexists _, _. intros st HE. cbn [mean]. rewrite EN, HE, F. apply PI.
  - destruct (sel e) as [i e1] eqn:F. eexists _, _. intros st HE. cbn [mean]. rewrite EN, HE, F. apply PI.
  - eexists _, _. intros st HE. cbn [mean]. rewrite EN, HE. apply PI.
Qed.
Lemma quote_mean_found (x : quoted) e : imports_of (fst (quote_mean [x] e)) = found (mean x (mk_mstate None [] e)) /\
  snd (quote_mean [x] e) = m_env (mean x (mk_mstate None [] e)).
Proof.
  unfold quote_mean, block_mean, block_mean_with. cbn [fold_left fst snd]. split; [|reflexivity]. rewrite imports_app, join_imports.
  cbn [start_of]. destruct (_ =? 0); cbn; apply app_nil_r.
Qed.

(** The imports of tokens, one after the other. *)
Definition leaf_imports (x : leaf LI E) (e : E) : list LI * E :=
  match x with LText _ => ([], e) | LOther x => (imports_of (fst (quote_mean [x] e)), snd (quote_mean [x] e)) end.
Fixpoint leaves_imports (ts : list (cursor * leaf LI E)) (e : E) : list LI * E :=
  match ts with
  | [] => ([], e)
  | (_, x) :: ts' => let '(a, e1) := leaf_imports x e in let '(b, e2) := leaves_imports ts' e1 in (a ++ b, e2)
  end.
Lemma leaves_app a : forall b e, leaves_imports (a ++ b) e =
  let '(x, e1) := leaves_imports a e in let '(y, e2) := leaves_imports b e1 in (x ++ y, e2).
Proof.
  induction a as [|[c x] a IH]; intros b e; cbn [app leaves_imports]; [destruct (leaves_imports b e); reflexivity|].
  destruct (leaf_imports x e) as [i e1]. rewrite IH. destruct (leaves_imports a e1) as [j e2]. destruct (leaves_imports b e2) as [k e3].
  rewrite app_assoc. reflexivity.
Qed.
Definition supplies (ts : list (cursor * leaf LI E)) (f : @mstate LI E -> @mstate LI E) : Prop := forall st,
  found (f st) = found st ++ fst (leaves_imports ts (m_env st)) /\ m_env (f st) = snd (leaves_imports ts (m_env st)).
Lemma supplies_app a b f g : supplies a f -> supplies b g -> supplies (a ++ b) (fun st => g (f st)).
Proof.
  intros A B st. destruct (A st) as [A1 A2]. destruct (B (f st)) as [B1 B2]. rewrite leaves_app, B1, B2, A1, A2.
  destruct (leaves_imports a (m_env st)) as [x e1]. cbn [fst snd]. destruct (leaves_imports b e1) as [y e2]. cbn [fst snd]. rewrite app_assoc. auto.
Qed.
Lemma supplies_fold qs : Forall (fun x => supplies (tokens_of x) (mean x)) qs -> supplies (all_tokens qs) (fun st => fold_left (fun st x => mean x st) qs st).
Proof.
  induction 1 as [|x qs H _ IH]; [intros st; cbn; rewrite app_nil_r; auto|]. exact (supplies_app _ _ _ _ H IH).
Qed.
Lemma mean_supplies : (forall x : quoted, supplies (tokens_of x) (mean x)) /\ (forall x : string_item LI E, True).
Proof.
  assert (TX : forall c d s, supplies [(c, LText s)] (fun st => put (KText s) (enter_chunks d st))).
  { intros c d s st. cbn [leaves_imports leaf_imports fst snd app]. rewrite put_imports. destruct (enter_imports d st) as [-> EE]. cbn. rewrite !app_nil_r. auto. }
  assert (OT : forall c (x : quoted), grouped x = false -> supplies [(c, LOther x)] (mean x)).
  { intros c x G st. destruct (mean_own x G (m_env st)) as (its & e' & H). destruct (H st eq_refl) as [H1 H2].
    destruct (H (mk_mstate None [] (m_env st)) eq_refl) as [H3 H4]. destruct (quote_mean_found x (m_env st)) as [Q1 Q2].
    cbn [leaves_imports leaf_imports fst snd]. rewrite app_nil_r, Q1, Q2, H3, H4. auto. }
  apply quoted_string_ind; try (intros; exact I); try (intros; apply TX); try (intros; apply OT; reflexivity).
  intros c d qs F. cbn [tokens_of]. change ((opener_at c, LText (opener d)) :: ?l) with ([(opener_at c, @LText LI E (opener d))] ++ l).
  apply (supplies_app _ _ (fun st => put (KText (opener d)) (enter_chunks (opener_at c) st))
    (fun st => put (KText (closer d)) (enter_chunks (closer_at c) (fold_left (fun st x => mean x st) qs st)))); [apply TX|].
  apply (supplies_app _ _ (fun st => fold_left (fun st x => mean x st) qs st) (fun st => put (KText (closer d)) (enter_chunks (closer_at c) st))); [|apply TX].
  apply supplies_fold. exact F.
Qed.
Lemma quote_imports (qs : list quoted) e e' t : quote qs e = Some (e', t) -> uses t = fst (leaves_imports (all_tokens qs) e).
Proof.
  intros Q. destruct (quote_runs qs e e' t Q) as (its & M & -> & _). unfold uses, from_iter. rewrite extend_imports. cbn [new items ritems rev app imports_of flat_map].
  assert (M' : its = fst (quote_mean qs e)) by (rewrite M; reflexivity). rewrite M'. unfold quote_mean, block_mean, block_mean_with. cbn [fst]. rewrite imports_app, join_imports.
  assert (SF : Forall (fun x => supplies (tokens_of x) (mean x)) qs) by (apply Forall_forall; intros x _; apply mean_supplies).
  destruct (supplies_fold qs SF (mk_mstate (start_of None) [] e)) as [H _]. cbn [m_chunks m_env flat_map app] in H. rewrite H.
  destruct (_ =? 0); cbn; rewrite ?app_nil_r; reflexivity.
Qed.
End Imports.
