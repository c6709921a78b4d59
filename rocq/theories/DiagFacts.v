(** * Lemmas: errors about indentation. *)
From Coq Require Import Sorted.
From Verif Require Import Str Tokens SpecTokens SpecFmt Macro SpecMacro SpecQuote MacroFacts MacroSem MacroTokens MacroLines MacroControl PropsMacro Diag SpecDiag.

Lemma pop_error_some col stack msg : StronglySorted gt stack -> pop_error col stack = Some msg ->
  exists c, In c stack /\ c <> col /\ msg = indentation_error col c /\ (col < c -> last stack 0 = c).
Proof.
  induction 1 as [|c rest S IH F]; [discriminate|]. cbn [pop_error].
  destruct (Nat.ltb_spec col c) as [L|L]; cbn [andb].
  - destruct rest as [|d rest]; cbn [negb].
    + destruct (Nat.eqb_spec c col); [lia|]. intros [= <-]. exists c. split; [left; reflexivity|]. split; [lia|]. split; [reflexivity|]. auto.
    + intros H. destruct (IH H) as (x & I & N & M & LA). exists x. split; [right; exact I|]. auto.
  - destruct (Nat.eqb_spec c col); [discriminate|]. intros [= <-]. exists c. split; [left; reflexivity|]. split; [lia|]. split; [reflexivity|]. lia.
Qed.
Lemma pop_error_none line col stack : stack <> [] -> @pop_indents unit unit line col stack = None <-> pop_error col stack <> None.
Proof.
  induction stack as [|c rest IH]; [congruence|]. intros _. cbn [pop_indents pop_error].
  destruct ((col <? c) && negb match rest with [] => true | _ => false end) eqn:B.
  - destruct rest as [|d rest]; [rewrite andb_false_r in B; discriminate|].
    assert (K := IH ltac:(discriminate)). destruct (pop_indents line col (d :: rest)) as [[r o]|]; [|split; [intros _; apply K; reflexivity|reflexivity]].
    split; [discriminate|]. intros H. apply K in H. discriminate.
  - destruct (c =? col); split; try discriminate; try congruence; reflexivity.
Qed.

Section Facts.
Context {LI E : Type}.
Notation quoted := (quoted_item LI E). Notation encoder := (encoder LI E).

(** The error at a place. *)
Definition place_error (c : cursor) (w : place) : option str :=
  match w with
  | Some (frm, col :: stack) =>
      if (p_line frm <? p_line (c_start c)) && (p_col (c_start c) <? col) then pop_error (p_col (c_start c)) stack else None
  | _ => None
  end.
Lemma step_error_place c (s : encoder) w : at_place s w -> step_error c s = option_map (fun m => (m, c)) (place_error c w).
Proof.
  intros AT. destruct w as [[frm cols]|].
  - destruct (from_place s frm cols AT) as (s1 & col & F & -> & C & _). unfold step_error. rewrite F. cbn [place_error]. unfold whitespace_error. rewrite C.
    destruct (Nat.eqb_spec (p_line frm) (p_line (c_start c))); destruct (Nat.ltb_spec (p_line frm) (p_line (c_start c))); try lia; cbn [andb]; [reflexivity| |].
    + destruct (Nat.ltb_spec (p_line (c_start c)) (p_line frm)); [lia|]. reflexivity.
    + destruct (Nat.ltb_spec (p_line (c_start c)) (p_line frm)); [|lia]. reflexivity.
  - destruct AT as (A & B & _). unfold step_error, from. rewrite A, B. reflexivity.
Qed.
Lemma pop_error_in col stack : StronglySorted gt stack -> In col stack -> pop_error col stack = None.
Proof.
  induction 1 as [|c rest S IH F]; [intros []|]. cbn [pop_error]. intros [->|I].
  - rewrite Nat.ltb_irrefl, Nat.eqb_refl. reflexivity.
  - pose proof F as F'. rewrite Forall_forall in F'. specialize (F' _ I). destruct (Nat.ltb_spec col c); [|lia].
    destruct rest; [destruct I|]. cbn [andb negb]. apply IH, I.
Qed.
Lemma pop_error_notin col stack : stack <> [] -> ~ In col stack -> pop_error col stack <> None.
Proof.
  induction stack as [|c rest IH]; [congruence|]. intros _ N. cbn [pop_error].
  destruct ((col <? c) && negb match rest with [] => true | _ => false end) eqn:B.
  - apply IH; [|intros I; apply N; right; exact I]. destruct rest; [rewrite andb_false_r in B; discriminate|discriminate].
  - destruct (Nat.eqb_spec c col) as [->|_]; [exfalso; apply N; left; reflexivity|discriminate].
Qed.
(** After other tokens. *)
Lemma place_error_after pre a c msg : place_error c (after (pre ++ [a])) = Some msg ->
  p_line (c_end a) < p_line (c_start c) /\ ~ may_start (line_starts (pre ++ [a])) (p_col (c_start c)) /\
  exists x, aligned (line_starts (pre ++ [a])) x /\ x <> p_col (c_start c) /\ msg = indentation_error (p_col (c_start c)) x.
Proof.
  rewrite after_snoc. cbn [place_error]. destruct (enclosing_top _ (line_starts_some pre a)) as [stack T]. rewrite T.
  pose proof (enclosing_sorted (line_starts (pre ++ [a]))) as SO. rewrite T in SO. inversion SO as [|? ? SS F]; subst.
  destruct (Nat.ltb_spec (p_line (c_end a)) (p_line (c_start c))) as [L|L]; cbn [andb]; [|discriminate].
  destruct (Nat.ltb_spec (p_col (c_start c)) (last (line_starts (pre ++ [a])) 0)) as [C|C]; [|discriminate].
  intros P. split; [exact L|]. split.
  - intros [M|M]; [lia|]. apply aligned_enclosing in M. rewrite T in M. destruct M as [M|M]; [lia|]. rewrite (pop_error_in _ _ SS M) in P. discriminate.
  - destruct (pop_error_some _ _ _ SS P) as (x & I & N & M & _). exists x. split; [|split; auto]. apply aligned_enclosing. rewrite T. right. exact I.
Qed.
Lemma enter_error pre a c : p_line (c_end a) <= p_line (c_start c) -> enter c (after (pre ++ [a])) = None -> place_error c (after (pre ++ [a])) <> None.
Proof.
  intros O EN. pose proof (enter_after pre a c) as EA. rewrite EN in EA. destruct EA as [EA|(L & M & LV)]; [lia|].
  rewrite after_snoc. cbn [place_error]. destruct (enclosing_top _ (line_starts_some pre a)) as [stack T]. rewrite T.
  pose proof (level_enclosing _ (line_starts_some pre a)) as LE. rewrite T in LE. cbn [length] in LE.
  destruct (Nat.ltb_spec (p_line (c_end a)) (p_line (c_start c))); [|lia]. cbn [andb].
  destruct (Nat.ltb_spec (p_col (c_start c)) (last (line_starts (pre ++ [a])) 0)) as [C|C]; [|exfalso; apply M; left; lia].
  apply pop_error_notin; [destruct stack; [cbn in LE; lia|discriminate]|]. intros I. apply M. right. apply aligned_enclosing. rewrite T. right. exact I.
Qed.
Lemma aligned_enter pre a c : p_line (c_end a) < p_line (c_start c) -> may_start (line_starts (pre ++ [a])) (p_col (c_start c)) ->
  enter c (after (pre ++ [a])) <> None.
Proof.
  intros L M. pose proof (enter_after pre a c) as EA. destruct (enter c (after (pre ++ [a]))); [discriminate|]. destruct EA as [EA|(_ & N & _)]; [lia|tauto].
Qed.

(** Tokens in turn. *)
Notation leaf := (leaf LI E).
Definition fine (l : leaf) : bool := match l with LText _ => true | LOther x => match quote_code [x] with Some _ => true | None => false end end.
Lemma fine_acceptable l : fine l = true <-> acceptable l.
Proof.
  destruct l as [u|x]; cbn [fine].
  - split; [intros _; exists (CText u); reflexivity|reflexivity].
  - destruct (quote_code [x]) as [[r code]|] eqn:QC; split; intros H; try reflexivity; try discriminate.
    + destruct x; try (exists (CCode code); exists r, code; auto; fail). exists (CEffect f). reflexivity.
    + destruct H as [k K]. cbn in K. destruct x; try (destruct K as (? & ? & K & _); congruence). discriminate QC.
Qed.
Lemma error_cons c l ts (s : encoder) : tokens_error ((c, l) :: ts) s =
  if fine l then match step_error c s with Some err => Some err | None => match enc_leaf (c, l) s with Some s' => tokens_error ts s' | None => None end end else None.
Proof. destruct l; reflexivity. Qed.
Lemma gaps_snoc cs c ps w p w' : gaps cs None = Some (ps, w) -> enter c w = Some (p, w') -> exists ps', gaps (cs ++ [c]) None = Some (ps', w').
Proof. intros G EN. rewrite gaps_app, G. cbn [gaps]. rewrite EN. eauto. Qed.
Lemma tokens_error_some ts : forall before (s : encoder) ps w msg c, Forall tok_ok ts ->
  gaps (map fst before) None = Some (ps, w) -> at_place s w -> tokens_error ts s = Some (msg, c) ->
  exists mid l post, ts = mid ++ (c, l) :: post /\ Forall (fun t => acceptable (snd t)) (mid ++ [(c, l)]) /\
    gaps (map fst (before ++ mid)) None <> None /\ place_error c (after (map fst (before ++ mid))) = Some msg.
Proof.
  induction ts as [|[c0 l] ts IH]; intros before s ps w msg c TO G AT H; [discriminate|]. inversion TO as [|? ? T0 TO']; subst.
  rewrite error_cons in H. destruct (fine l) eqn:FI; [|discriminate]. pose proof FI as AC. apply fine_acceptable in AC. rewrite (step_error_place c0 s w AT) in H.
  pose proof (gaps_after _ _ _ G) as W. destruct (place_error c0 w) as [m|] eqn:PE; cbn [option_map] in H.
  - injection H as <- <-. exists [], l, ts. split; [reflexivity|]. split; [constructor; [exact AC|constructor]|]. rewrite app_nil_r, G. split; [discriminate|]. rewrite <- W. exact PE.
  - pose proof (leaf_step c0 l s w T0 AT) as L. destruct (enc_leaf (c0, l) s) as [s'|] eqn:EL; [|discriminate].
    destruct (enter c0 w) as [[p w']|] eqn:EN; [|discriminate]. destruct L as (sep & k & AT' & _).
    destruct (gaps_snoc _ _ _ _ _ _ G EN) as [ps' G'].
    destruct (IH (before ++ [(c0, l)]) s' ps' w' msg c TO') as (mid & l2 & post & -> & FA & G2 & P2); auto.
    { rewrite map_app. exact G'. }
    exists ((c0, l) :: mid), l2, post. split; [reflexivity|]. split; [constructor; [exact AC|exact FA]|]. rewrite <- app_assoc in G2, P2. split; assumption.
Qed.
Lemma in_order_app a b : in_order (a ++ b) -> in_order b.
Proof. induction a as [|x a IH]; [auto|]. intros H. apply IH. cbn [app in_order] in H. destruct (a ++ b); [exact I|tauto]. Qed.
Lemma tokens_error_none ts : forall before (s : encoder) ps w, Forall tok_ok ts -> Forall (fun t => fine (snd t) = true) ts ->
  in_order (map fst (before ++ ts)) ->
  gaps (map fst before) None = Some (ps, w) -> at_place s w -> tokens_error ts s = None -> fold_opt enc_leaf ts s <> None.
Proof.
  induction ts as [|[c l] ts IH]; intros before s ps w TO FA IO G AT H; [discriminate|]. inversion TO as [|? ? T0 TO']; subst. inversion FA as [|? ? F0 FA']; subst. cbn [snd] in F0.
  rewrite error_cons, F0 in H. rewrite (step_error_place c s w AT) in H. destruct (place_error c w) as [m|] eqn:PE; [discriminate|]. cbn [option_map] in H.
  rewrite fold_opt_cons. pose proof (gaps_after _ _ _ G) as W. pose proof (leaf_step c l s w T0 AT) as L.
  destruct (enter c w) as [[p w']|] eqn:EN.
  - destruct (enc_leaf (c, l) s) as [s'|]; cbn [bind].
    + destruct L as (sep & k & AT' & _). destruct (gaps_snoc _ _ _ _ _ _ G EN) as [ps' G'].
      apply (IH (before ++ [(c, l)]) s' ps' w'); auto; [rewrite <- app_assoc; exact IO|rewrite map_app; exact G'].
    + exfalso. apply L, fine_acceptable, F0.
  - exfalso. destruct before as [|[a la] before] using rev_ind; [subst w; discriminate|clear IHbefore].
    subst w. rewrite !map_app in *. cbn [map fst] in *. apply (enter_error (map fst before) a c) in EN; [congruence|].
    rewrite <- app_assoc in IO. apply in_order_app in IO. cbn [app map fst in_order] in IO. tauto.
Qed.
(** Tokens as a quote. *)
Definition item_of (t : cursor * leaf) : quoted := match snd t with LText u => QText (fst t) u | LOther x => x end.
Lemma item_tokens t : tok_ok t -> tokens_of (item_of t) = [t].
Proof. destruct t as [c [u|x]]; cbn; [reflexivity|]. intros [O C]. cbn in C. subst c. destruct x; try discriminate O; reflexivity. Qed.
Lemma items_tokens ts : Forall tok_ok ts -> all_tokens (map item_of ts) = ts.
Proof. induction 1 as [|t ts T _ IH]; [reflexivity|]. cbn [map]. rewrite all_cons, item_tokens, IH by exact T. reflexivity. Qed.
End Facts.
