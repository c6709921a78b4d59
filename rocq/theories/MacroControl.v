(** * Lemmas: levels in generated code, parentheses, control flow. *)
From Verif Require Import Str Tokens SpecTokens TokensRun TokensFacts Values ValuesFacts SpecFmt Macro SpecMacro SpecQuote
  MacroFacts MacroSem MacroTokens.

Section Control.
Context {LI E : Type}.
Notation stmt := (stmt LI E). Notation quoted := (quoted_item LI E). Notation encoder := (encoder LI E).
Notation sencoder := (sencoder LI E).

(** ** Parentheses *)
Definition frame (la : option cursor) (s : encoder) : encoder :=
  mk_encoder (e_span_start s) (e_span_end s) (e_buffer s) (e_output s) la (e_last_start_column s) (e_indents s) (e_req s).
Lemma tokenize_frame la f to (s : encoder) : tokenize_whitespace f to (frame la s) = option_map (frame la) (tokenize_whitespace f to s).
Proof.
  destruct s as [ss se0 buf out la0 lc inds rq]. unfold tokenize_whitespace. destruct (_ && _); [reflexivity|].
  destruct (p_line f =? p_line to).
  - destruct (p_col f <? p_col to); [|reflexivity]. unfold flush. cbn [e_buffer frame]. destruct buf; reflexivity.
  - assert (FL : flush (frame la (mk_encoder ss se0 buf out la0 lc inds rq)) = frame la (@flush LI E (mk_encoder ss se0 buf out la0 lc inds rq))).
    { unfold flush. cbn [e_buffer frame]. destruct buf; reflexivity. }
    rewrite FL. destruct (flush (mk_encoder ss se0 buf out la0 lc inds rq)) as [ss1 se1 buf1 out1 la1 lc1 inds1 rq1].
    destruct (p_line to <? p_line f); [reflexivity|]. cbn [frame e_last_start_column]. destruct lc1 as [col|]; [|reflexivity].
    destruct (col <? p_col to); [reflexivity|]. destruct (p_col to <? col); [|reflexivity]. cbn [set_column e_indents frame].
    destruct (pop_indents _ _ _) as [[rest o2]|]; reflexivity.
Qed.
Lemma tokenize_end o f to (s : encoder) : tokenize_whitespace f to (set_span_end o s) = option_map (set_span_end o) (tokenize_whitespace f to s).
Proof.
  destruct s as [ss se0 buf out la0 lc inds rq]. unfold tokenize_whitespace. destruct (_ && _); [reflexivity|].
  destruct (p_line f =? p_line to).
  - destruct (p_col f <? p_col to); [|reflexivity]. unfold flush. cbn [e_buffer set_span_end]. destruct buf; reflexivity.
  - assert (FL : flush (set_span_end o (mk_encoder ss se0 buf out la0 lc inds rq)) = set_span_end o (@flush LI E (mk_encoder ss se0 buf out la0 lc inds rq))).
    { unfold flush. cbn [e_buffer set_span_end]. destruct buf; reflexivity. }
    rewrite FL. destruct (flush (mk_encoder ss se0 buf out la0 lc inds rq)) as [ss1 se1 buf1 out1 la1 lc1 inds1 rq1].
    destruct (p_line to <? p_line f); [reflexivity|]. cbn [set_span_end e_last_start_column]. destruct lc1 as [col|]; [|reflexivity].
    destruct (col <? p_col to); [reflexivity|]. destruct (p_col to <? col); [|reflexivity]. cbn [set_column e_indents set_span_end].
    destruct (pop_indents _ _ _) as [[rest o2]|]; reflexivity.
Qed.
Lemma step_start b c p e : step c (require b (encoder_new (Some p) e)) =
  @step LI E c (require b (mk_encoder None e [] [] (Some (mk_cursor p p)) None [] false)).
Proof.
  unfold step, from. cbn [require encoder_new e_span_start e_last e_last_start_column e_span_end e_buffer e_output e_indents e_req set_column].
  match goal with |- match tokenize_whitespace _ _ ?s1 with _ => _ end = match tokenize_whitespace _ _ ?s2 with _ => _ end => change s1 with (frame None s2) end.
  rewrite tokenize_frame. cbn [c_end]. destruct (tokenize_whitespace _ _ _); reflexivity.
Qed.
(** Every element starts with a step. *)
Lemma encode_first (x : quoted) (s1 s2 : encoder) : (forall b c, step c (require b s1) = step c (require b s2)) ->
  encode x s1 = encode x s2.
Proof.
  intros H.
  assert (H0 : forall c, step c s1 = step c s2).
  { intros c. specialize (H false c). rewrite !require_false in H. exact H. }
  destruct x; try (cbn [encode]; rewrite ?H0; reflexivity).
  - rewrite !encode_string. destruct (bind (fold_opt sencode ps _) _) as [r|]; [|reflexivity]. cbn [bind]. rewrite H. reflexivity.
  - cbn [encode]. destruct join as [[paren js]|]; cbn [bind].
    + destruct (block_with encode (Some paren) js) as [j|]; [|reflexivity]. cbn [bind].
      destruct (block_with encode None body) as [b|]; [|reflexivity]. cbn [bind]. rewrite H. reflexivity.
    + destruct (block_with encode None body) as [b|]; [|reflexivity]. cbn [bind]. rewrite H. reflexivity.
  - cbn [encode]. destruct (block_with encode None a) as [a'|]; [|reflexivity]. cbn [bind]. destruct b as [b|]; cbn [bind].
    + destruct (block_with encode None b) as [b'|]; [|reflexivity]. cbn [bind]. rewrite H. reflexivity.
    + rewrite H. reflexivity.
  - cbn [encode]. destruct (fold_opt _ arms (false, [])) as [r|]; [|reflexivity]. cbn [bind]. rewrite H. reflexivity.
Qed.
(** The end of the span plays no role but at the end. *)
Lemma from_end o (s : encoder) : from (set_span_end o s) = (fst (from s), set_span_end o (snd (from s))).
Proof. destruct s as [ss se buf out la lc inds rq]. unfold from. cbn. destruct ss; [|destruct la; [destruct lc|]]; reflexivity. Qed.
Lemma step_end c o (s : encoder) : step c (set_span_end o s) = option_map (set_span_end o) (step c s).
Proof.
  unfold step. rewrite from_end. destruct (from s) as [[f|] s1]; cbn [fst snd].
  - rewrite tokenize_end. destruct (tokenize_whitespace f (c_start c) s1); reflexivity.
  - reflexivity.
Qed.
Lemma flush_end o (s : encoder) : flush (set_span_end o s) = set_span_end o (flush s).
Proof. destruct s as [ss se buf out la lc inds rq]. destruct buf; reflexivity. Qed.
Lemma fold_end (f : quoted -> encoder -> option encoder) o qs :
  Forall (fun x => forall s, f x (set_span_end o s) = option_map (set_span_end o) (f x s)) qs ->
  forall s, fold_opt f qs (set_span_end o s) = option_map (set_span_end o) (fold_opt f qs s).
Proof.
  induction 1 as [|x qs H _ IH]; intros s; [reflexivity|]. rewrite !fold_opt_cons, H. destruct (f x s) as [s'|]; [|reflexivity]. cbn [bind option_map]. apply IH.
Qed.
Lemma after_step_end o b c (F : encoder -> option encoder) s : (forall s, F (set_span_end o s) = option_map (set_span_end o) (F s)) ->
  bind (step c (require b (set_span_end o s))) F = option_map (set_span_end o) (bind (step c (require b s)) F).
Proof.
  intros H. change (require b (set_span_end o s)) with (set_span_end o (require b s)). rewrite step_end.
  destruct (step c (require b s)) as [s'|]; [|reflexivity]. cbn [option_map bind]. apply H.
Qed.
Lemma encode_end o : (forall (x : quoted) s, encode x (set_span_end o s) = option_map (set_span_end o) (encode x s)) /\ (forall x : string_item LI E, True).
Proof.
  assert (B : forall c (F : encoder -> option encoder) s, (forall s, F (set_span_end o s) = option_map (set_span_end o) (F s)) ->
    bind (step c (set_span_end o s)) F = option_map (set_span_end o) (bind (step c s) F)).
  { intros c F s H. pose proof (after_step_end o false c F s H) as X. rewrite !require_false in X. exact X. }
  apply quoted_string_ind; intros; auto; try (apply B; intros s1; rewrite ?flush_end; reflexivity).
  - cbn [encode]. apply B. intros s1. change (buffer_push ?t (set_span_end o s1)) with (set_span_end o (buffer_push t s1)).
    rewrite fold_end by auto. destruct (fold_opt encode qs _) as [s2|]; [|reflexivity]. cbn [option_map bind]. apply B. intros s3. reflexivity.
  - rewrite !encode_string. destruct (bind (fold_opt sencode ps _) _) as [r|]; [|reflexivity]. cbn [bind].
    apply after_step_end. intros s1. change (require ?b (set_span_end o s1)) with (set_span_end o (require b s1)). rewrite flush_end. reflexivity.
  - cbn [encode]. destruct join as [[paren js]|]; cbn [bind].
    + destruct (block_with encode (Some paren) js) as [j|]; [|reflexivity]. cbn [bind].
      destruct (block_with encode None body) as [b|]; [|reflexivity]. cbn [bind]. apply after_step_end. intros s1. rewrite flush_end. reflexivity.
    + destruct (block_with encode None body) as [b|]; [|reflexivity]. cbn [bind]. apply after_step_end. intros s1. rewrite flush_end. reflexivity.
  - cbn [encode]. destruct (block_with encode None a) as [a'|]; [|reflexivity]. cbn [bind]. destruct b as [b|]; cbn [bind].
    + destruct (block_with encode None b) as [b'|]; [|reflexivity]. cbn [bind]. apply after_step_end. intros s1. rewrite flush_end. reflexivity.
    + apply after_step_end. intros s1. rewrite flush_end. reflexivity.
  - cbn [encode]. destruct (fold_opt _ arms (false, [])) as [r|]; [|reflexivity]. cbn [bind]. apply after_step_end. intros s1. rewrite flush_end. reflexivity.
Qed.

Theorem in_parens_code paren (qs : list quoted) : block_with encode paren qs = quote_code (in_parens paren qs).
Proof.
  destruct paren as [[[r1 c1] [r2 c2]]|]; [|reflexivity]. cbn [in_parens]. unfold quote_code, block_with. cbn [option_map].
  unfold inner_start, inner_end. cbn [c_start c_end p_line p_col]. set (p := mk_pos r1 (c1 + 1)). set (q := mk_pos r2 (c2 - 1)).
  rewrite fold_opt_cons.
  assert (E1 : encode (edge p) (encoder_new None None) = Some (@mk_encoder LI E None None [] [] (Some (mk_cursor p p)) None [] false)) by reflexivity.
  rewrite E1. cbn [bind]. set (s0 := mk_encoder None None [] [] (Some (mk_cursor p p)) None [] false).
  rewrite fold_opt_app.
  assert (ST : fold_opt encode qs (encoder_new (Some p) (Some q)) = fold_opt encode qs (set_span_end (Some q) s0) \/ qs = []).
  { destruct qs as [|x qs]; [right; reflexivity|left]. rewrite !fold_opt_cons. f_equal. apply encode_first. intros b c. apply step_start. }
  assert (FIN : forall s : encoder, e_span_end s = None -> finalize (set_span_end (Some q) s) = bind (bind (encode (edge q) s) (fold_opt encode [])) finalize).
  { intros s N.
    assert (X : set_span_end None (set_span_end (Some q) s) = s) by (destruct s as [? ? ? ? ? ? ? ?]; cbn in N; subst; reflexivity).
    unfold finalize at 1. rewrite X. cbn [set_span_end e_span_end]. cbn [encode edge]. unfold step.
    pose proof (from_end None s) as FE.
    assert (Y : forall s1 : encoder, e_span_end s1 = None -> set_span_end None s1 = s1) by (intros [? ? ? ? ? ? ? ?] Z; cbn in Z; subst; reflexivity).
    rewrite (Y s N) in FE. destruct (from s) as [f s1] eqn:FS. cbn [fst snd] in FE. injection FE as FE.
    assert (N1 : e_span_end s1 = None) by (rewrite FE; reflexivity).
    assert (DONE : forall s2 : encoder, e_span_end s2 = None ->
       bind (Some s2) (fun s => let s := flush s in Some (e_req s, e_output s ++ map (fun _ => SUnindent) (e_indents s))) =
       finalize (buffer_push [] (set_last (mk_cursor q q) s2))).
    { intros s2 N2. unfold finalize. cbn [buffer_push set_last e_span_end]. rewrite N2. cbn [bind]. unfold flush. cbn [buffer_push set_last e_buffer].
      rewrite app_nil_r. destruct (e_buffer s2); reflexivity. }
    cbn [c_start]. destruct f as [f|].
    - pose proof (tokenize_end None f q s1) as T. rewrite (Y s1 N1) in T. destruct (tokenize_whitespace f q s1) as [s2|]; [|reflexivity].
      cbn [option_map] in T. injection T as T. cbn [bind fold_opt]. apply DONE. rewrite T. reflexivity.
    - cbn [bind fold_opt]. apply DONE. exact N1. }
  assert (EN : forall s' : encoder, fold_opt encode qs s0 = Some s' -> e_span_end s' = None).
  { intros s' H. pose proof (fold_end encode None qs) as FE. specialize (FE ltac:(apply Forall_forall; intros x _; apply (proj1 (encode_end None))) s0).
    change (set_span_end None s0) with s0 in FE. rewrite H in FE. cbn in FE. injection FE as FE. rewrite FE. reflexivity. }
  assert (MAIN : bind (fold_opt encode qs (set_span_end (Some q) s0)) finalize = bind (bind (fold_opt encode qs s0) (fold_opt encode [edge q])) finalize).
  { rewrite fold_end by (apply Forall_forall; intros x _; apply (proj1 (encode_end (Some q)))).
    destruct (fold_opt encode qs s0) as [s1|] eqn:F; [|reflexivity]. cbn [option_map bind]. rewrite FIN by auto. rewrite fold_opt_cons. reflexivity. }
  destruct ST as [ST|ST].
  - rewrite ST. exact MAIN.
  - rewrite <- MAIN. subst qs. cbn [fold_opt bind]. unfold finalize, from.
    cbn [encoder_new set_span_end e_span_start e_last e_last_start_column e_span_end e_buffer e_output e_indents e_req set_column s0 c_end c_start].
    match goal with |- bind (tokenize_whitespace _ _ ?s1) _ = bind (tokenize_whitespace _ _ ?s2) _ => change s1 with (frame None s2) end.
    rewrite tokenize_frame. destruct (tokenize_whitespace p q _) as [s2|]; [|reflexivity]. cbn [option_map bind].
    unfold flush. cbn [frame e_buffer]. destruct (e_buffer s2); reflexivity.
Qed.

(** ** Levels *)
Section Balance.
Context (PV : @expr E (value LI) -> Prop) (PC : @expr E (list (call LI)) -> Prop)
  (PS : forall s, PV (fun e => (VItemStr (Static s), e))).
Notation inside := (inside_balanced PV PC). Notation bal := (balanced PV PC).

Lemma levels_app a b : levels (a ++ b) = (levels a + @levels LI E b)%Z.
Proof. induction a as [|c a IH]; cbn [app levels]; [reflexivity|]. rewrite IH. lia. Qed.
Lemma levels_unindents {A} (l : list A) : levels (map (fun _ => @SUnindent LI E) l) = (- Z.of_nat (length l))%Z.
Proof. induction l as [|x l IH]; [reflexivity|]. cbn [map levels stmt_level length]. rewrite IH. lia. Qed.
Definition all_inside := fix all (l : list stmt) : Prop := match l with [] => True | x :: l' => inside x /\ all l' end.
Lemma all_inside_forall l : all_inside l <-> Forall inside l.
Proof. induction l as [|x l IH]; cbn; [split; constructor|]. rewrite IH. split; [intros [? ?]; constructor; auto|inversion 1; auto]. Qed.
Definition blk (l : list stmt) : Prop := levels l = 0%Z /\ all_inside l.
Lemma blk_bal l : blk l <-> bal l.
Proof. unfold blk, balanced. rewrite all_inside_forall. reflexivity. Qed.
Definition every_blk := fix every (l : list (list stmt)) : Prop := match l with [] => True | a :: l' => blk a /\ every l' end.
Lemma inside_for it b : inside (SFor it b) <-> bal b.
Proof. rewrite <- blk_bal. reflexivity. Qed.
Lemma inside_for_join it b j : inside (SForJoin it b j) <-> bal b /\ bal j.
Proof. rewrite <- !blk_bal. reflexivity. Qed.
Lemma inside_if c a b : inside (SIf c a b) <-> bal a /\ match b with Some b => bal b | None => True end.
Proof. rewrite <- blk_bal. destruct b as [b|]; [rewrite <- blk_bal|]; reflexivity. Qed.
Lemma inside_match c arms : inside (SMatch c arms) <-> Forall bal arms.
Proof.
  change (inside (SMatch c arms)) with (every_blk arms). induction arms as [|a arms IH]; cbn; [split; constructor|].
  rewrite IH, blk_bal. split; [intros [? ?]; constructor; auto|inversion 1; auto].
Qed.
Lemma bal_app a b : bal a -> bal b -> bal (a ++ b).
Proof. intros [L1 F1] [L2 F2]. split; [rewrite levels_app; lia|apply Forall_app; auto]. Qed.
Lemma bal_one c : stmt_level c = 0%Z -> inside c -> bal [c].
Proof. intros L I. split; [cbn; lia|constructor; auto]. Qed.
Lemma bal_nil : bal [].
Proof. split; [reflexivity|constructor]. Qed.

Definition inv (s : encoder) : Prop := levels (e_output s) = Z.of_nat (length (e_indents s)) /\ Forall inside (e_output s).
Lemma inv_new a b : inv (encoder_new a b).
Proof. split; [reflexivity|constructor]. Qed.
Lemma inv_flush s : inv s -> inv (flush s).
Proof.
  intros [L F]. unfold flush. destruct (e_buffer s) as [|c b]; [split; auto|]. split; cbn [e_output e_indents].
  - rewrite levels_app, L. cbn. lia.
  - apply Forall_app. split; auto. constructor; [exact I|constructor].
Qed.
Lemma inv_emit g s : bal g -> inv s -> inv (emit g s).
Proof. intros [L1 F1] [L F]. split; cbn [emit e_output e_indents]; [rewrite levels_app; lia|apply Forall_app; auto]. Qed.
Lemma pop_levels ln col st : match pop_indents ln col st with
  | Some (rest, out) => levels out = (Z.of_nat (length rest) - Z.of_nat (length st))%Z /\ Forall inside out
  | None => True
  end.
Proof.
  induction st as [|c st IH]; cbn [pop_indents]; [split; [reflexivity|constructor]|].
  assert (LN : forall b : bool, levels (if b then [@SLine LI E] else []) = 0%Z /\ Forall inside (if b then [SLine] else [])).
  { intros [|]; split; try reflexivity; repeat constructor. }
  destruct (LN ln) as [L1 L2].
  destruct (_ && _).
  - destruct (pop_indents ln col st) as [[rest out]|]; [|exact I]. destruct IH as [IH1 IH2]. split.
    + cbn [levels stmt_level]. rewrite levels_app, L1, IH1. cbn [length]. lia.
    + constructor; [exact I|]. apply Forall_app. auto.
  - destruct (c =? col); [|exact I]. split; [cbn [levels stmt_level length]; rewrite L1; lia|constructor; auto; exact I].
Qed.
Lemma inv_step c s s' : inv s -> step c s = Some s' -> inv s'.
Proof.
  intros V. unfold step.
  assert (VF : inv (snd (from s))).
  { unfold from. destruct (e_span_start s); [exact V|]. destruct (e_last s); [|exact V]. destruct (e_last_start_column s); exact V. }
  destruct (from s) as [f s1]. cbn [snd] in VF.
  assert (T : forall frm s2, tokenize_whitespace frm (c_start c) s1 = Some s2 -> inv s2).
  { intros frm s2. unfold tokenize_whitespace. destruct (_ && _); [intros [= <-]; exact VF|].
    destruct (p_line frm =? p_line (c_start c)).
    - destruct (_ <? _); intros [= <-]; [|exact VF]. apply inv_emit; [apply bal_one; [reflexivity|exact I]|apply inv_flush; auto].
    - pose proof (inv_flush _ VF) as V2. destruct (flush s1) as [ss se buf out la lc inds rq]. destruct V2 as [L F]. cbn in L, F.
      destruct (p_line (c_start c) <? p_line frm); [discriminate|]. cbn [e_last_start_column]. destruct lc as [col|]; [|intros [= <-]; split; auto].
      set (ln := 1 <? p_line (c_start c) - p_line frm).
      destruct (col <? p_col (c_start c)).
      + intros [= <-]. split; cbn [emit set_indents set_column e_output e_indents length].
        * rewrite levels_app, L. destruct ln; cbn; lia.
        * apply Forall_app. split; auto. destruct ln; repeat constructor.
      + destruct (p_col (c_start c) <? col).
        * cbn [set_column e_indents]. pose proof (pop_levels ln (p_col (c_start c)) inds) as PL.
          destruct (pop_indents ln (p_col (c_start c)) inds) as [[rest o]|]; [|discriminate]. destruct PL as [P1 P2]. intros [= <-].
          split; cbn [emit set_indents set_column e_output e_indents]; [rewrite levels_app; lia|apply Forall_app; auto].
        * intros [= <-]. split; cbn [emit set_indents set_column e_output e_indents]; [rewrite levels_app, L; destruct ln; cbn; lia|].
          apply Forall_app. split; auto. destruct ln; repeat constructor. }
  destruct f as [frm|].
  - destruct (tokenize_whitespace frm (c_start c) s1) as [s2|] eqn:Q; [|discriminate]. intros [= <-]. specialize (T _ _ Q). exact T.
  - intros [= <-]. exact VF.
Qed.
Lemma inv_finalize s r code : inv s -> finalize s = Some (r, code) -> bal code.
Proof.
  intros V. unfold finalize.
  assert (FIN : forall o, (forall s1, o = Some s1 -> inv s1) ->
    bind o (fun s => let s := flush s in Some (e_req s, e_output s ++ map (fun _ => SUnindent) (e_indents s))) = Some (r, code) -> bal code).
  { intros [s1|] H; [|discriminate]. cbn [bind]. specialize (H s1 eq_refl). apply inv_flush in H. destruct H as [L F]. intros [= <- <-].
    split; [rewrite levels_app, levels_unindents; lia|]. apply Forall_app. split; auto. apply Forall_forall. intros x Hx. apply in_map_iff in Hx as (? & <- & _). exact I. }
  apply FIN. intros s1. destruct (e_span_end s) as [to|]; [|intros [= <-]; exact V].
  pose proof (inv_step (mk_cursor to to) (set_span_end None s)) as ST. unfold step in ST. cbn [c_start] in ST.
  destruct (from (set_span_end None s)) as [[f|] s2].
  - intros Q. rewrite Q in ST. exact (ST _ V eq_refl).
  - intros [= <-]. exact (ST _ V eq_refl).
Qed.
Definition sinv (s : sencoder) : Prop := bal (s_stream s).
Lemma sinv_flush f t s s' : sinv s -> sflush f t s = Some s' -> sinv s'.
Proof.
  intros V. unfold sflush, flush_whitespace.
  assert (G : forall s1 : sencoder, s_stream s1 = s_stream s ->
    match s_buf s1 with [] => Some s1 | txt => Some (mk_sencoder (s_cursor s1) [] (s_stream s1 ++ [SStatic txt]) (s_has_eval s1) (s_req s1)) end = Some s' -> sinv s').
  { intros s1 Q. destruct (s_buf s1); intros [= <-]; unfold sinv in *; cbn [s_stream]; rewrite Q; auto. apply bal_app; auto. apply bal_one; [reflexivity|exact I]. }
  destruct f as [f|]; [destruct (s_cursor s) as [c|]; [destruct (negb _); [discriminate|]|]|]; cbn [bind]; apply G; reflexivity.
Qed.
Lemma sinv_str t c s s' : sinv s -> encode_str t c s = Some s' -> sinv s'.
Proof.
  intros V. unfold encode_str, flush_whitespace. destruct (s_cursor s) as [k|]; [destruct (negb _); [discriminate|]|]; cbn; intros [= <-]; exact V.
Qed.
Lemma sinv_emit g b r c s s' : bal g -> sinv s -> semit g b r c s = Some s' -> sinv s'.
Proof.
  intros G V. unfold semit. destruct (sflush _ _ s) as [s1|] eqn:Q; [|discriminate]. apply sinv_flush in Q; auto. cbn [bind]. intros [= <-].
  apply bal_app; auto.
Qed.
Definition ev_all := fix all (l : list quoted) : Prop := match l with [] => True | x :: l' => every_value PV PC PV x /\ all l' end.
Lemma ev_all_forall l : ev_all l <-> Forall (every_value PV PC PV) l.
Proof. induction l as [|x l IH]; cbn; [split; constructor|]. rewrite IH. split; [intros [? ?]; constructor; auto|inversion 1; auto]. Qed.
Definition ev_alls := fix alls (l : list (string_item LI E)) : Prop := match l with [] => True | x :: l' => every_value_in PV PC PV x /\ alls l' end.
Lemma ev_alls_forall l : ev_alls l <-> Forall (every_value_in PV PC PV) l.
Proof. induction l as [|x l IH]; cbn [ev_alls]; [split; constructor|]. rewrite IH. split; [intros [? ?]; constructor; auto|inversion 1; auto]. Qed.
Definition ev_arms := fix every (l : list (option cursor * list quoted)) : Prop := match l with [] => True | (_, qs) :: l' => ev_all qs /\ every l' end.

Definition enc_bal (x : quoted) : Prop := every_value PV PC PV x -> forall s s', inv s -> encode x s = Some s' -> inv s'.
Lemma fold_inv qs : Forall enc_bal qs -> Forall (every_value PV PC PV) qs -> forall s s', inv s -> fold_opt encode qs s = Some s' -> inv s'.
Proof.
  induction 1 as [|x qs H _ IH]; intros EV s s' V F; inversion EV; subst.
  - cbn in F. injection F as <-. exact V.
  - rewrite fold_opt_cons in F. destruct (encode x s) as [s1|] eqn:Q; [|discriminate]. cbn [bind] in F. eapply IH; [auto| |exact F]. eapply H; eauto.
Qed.
Lemma block_bal paren qs r code : Forall enc_bal qs -> Forall (every_value PV PC PV) qs -> block_with encode paren qs = Some (r, code) -> bal code.
Proof.
  intros H EV B. unfold block_with in B. destruct (fold_opt encode qs _) as [s1|] eqn:Q; [|discriminate]. cbn [bind] in B.
  eapply inv_finalize; [|exact B]. eapply fold_inv; eauto. apply inv_new.
Qed.
Lemma inv_enter c b g s s' : inv s -> bal g -> bind (step c (require b s)) (fun s => Some (emit g (flush s))) = Some s' -> inv s'.
Proof.
  intros V G. destruct (step c (require b s)) as [s1|] eqn:Q; [|discriminate]. apply inv_step in Q; [|exact V]. cbn. intros [= <-].
  apply inv_emit; auto. apply inv_flush; auto.
Qed.
Lemma inv_enter0 c g s s' : inv s -> bal g -> bind (step c s) (fun s => Some (emit g (flush s))) = Some s' -> inv s'.
Proof. intros V G H. apply (inv_enter c false g s s' V G). rewrite require_false. exact H. Qed.
Lemma inv_text c t s s' : inv s -> bind (step c s) (fun s => Some (buffer_push t s)) = Some s' -> inv s'.
Proof. intros V. destruct (step c s) as [s1|] eqn:Q; [|discriminate]. apply inv_step in Q; [|exact V]. cbn. intros [= <-]. exact Q. Qed.

Theorem encode_balanced : (forall x, enc_bal x) /\
  (forall x, every_value_in PV PC PV x -> forall s s', sinv s -> sencode x s = Some s' -> sinv s').
Proof.
  assert (ITEM : forall x, indentation_of x = 0%Z -> bal [SItem x]) by (intros x H; apply bal_one; [reflexivity|exact H]).
  apply quoted_string_ind; unfold enc_bal.
  - intros c s0 _ s s' V H. eapply inv_text; eauto.
  - intros c _ s s' V H. eapply inv_text; eauto.
  - intros c s0 _ s s' V H. eapply inv_text; eauto.
  - intros c s0 _ s s' V H. eapply inv_enter0; [exact V| |exact H]. split; [reflexivity|]. repeat constructor. apply PS.
  - intros c d qs IH EV s s' V H. change (every_value PV PC PV (QGroup c d qs)) with (ev_all qs) in EV. rewrite ev_all_forall in EV. cbn [encode] in H.
    destruct (step (first_character c) s) as [s1|] eqn:Q1; [|discriminate]. cbn [bind] in H. apply inv_step in Q1; [|exact V].
    destruct (fold_opt encode qs (buffer_push (open_char d) s1)) as [s2|] eqn:Q2; [|discriminate]. cbn [bind] in H.
    assert (V2 : inv s2) by (eapply (fold_inv qs IH EV (buffer_push (open_char d) s1)); [exact Q1|exact Q2]).
    eapply inv_text; [exact V2|exact H].
  - intros c p ps IH EV s s' V H. change (every_value PV PC PV (QString c p ps)) with (ev_alls ps) in EV. rewrite ev_alls_forall in EV. rewrite encode_string in H.
    assert (FS : forall s0 s1, sinv s0 -> fold_opt sencode ps s0 = Some s1 -> sinv s1).
    { clear -PS IH EV. induction IH as [|x ps H _ IH]; intros s0 s1 V0 F; inversion EV; subst.
      - cbn in F. injection F as <-. exact V0.
      - rewrite fold_opt_cons in F. destruct (sencode x s0) as [s2|] eqn:Q; [|discriminate]. cbn [bind] in F. eapply IH; [auto| |exact F]. eapply H; eauto. }
    destruct (fold_opt sencode ps _) as [s1|] eqn:Q1; [|discriminate]. cbn [bind] in H. apply FS in Q1; [|apply bal_nil].
    destruct (sflush _ _ s1) as [r|] eqn:Q2; [|discriminate]. cbn [bind] in H. apply sinv_flush in Q2; auto.
    destruct (step c _) as [s2|] eqn:Q3; [|discriminate]. apply inv_step in Q3; [|exact V]. cbn [bind] in H. injection H as <-.
    apply inv_emit; [|apply inv_flush; exact Q3]. apply (bal_app [_]); [apply ITEM; reflexivity|]. apply bal_app; [exact Q2|apply ITEM; reflexivity].
  - intros c k _ s s' V H. eapply inv_enter0; [exact V| |exact H]. destruct k; apply bal_one; try reflexivity; exact I.
  - intros c v EV s s' V H. eapply inv_enter0; [exact V| |exact H]. apply bal_one; [reflexivity|exact EV].
  - intros c v EV s s' V H. eapply inv_enter0; [exact V| |exact H]. apply bal_one; [reflexivity|exact EV].
  - intros c f _ s s' V H. cbn [encode] in H. destruct (step c s) as [s1|] eqn:Q; [|discriminate]. apply inv_step in Q; [|exact V]. cbn in H. injection H as <-.
    apply inv_emit; auto. apply bal_one; [reflexivity|exact I].
  - intros c it join body IJ IB EV s s' V H.
    assert (EV2 : match join with Some (_, js) => Forall (every_value PV PC PV) js | None => True end /\ Forall (every_value PV PC PV) body).
    { change (match join with Some (_, js) => ev_all js | None => True end /\ ev_all body) in EV. rewrite ev_all_forall in EV. destruct join as [[p js]|]; [rewrite ev_all_forall in EV|]; exact EV. }
    destruct EV2 as [EJ EB]. cbn [encode] in H. destruct join as [[paren js]|]; cbn [bind] in H.
    + destruct (block_with encode (Some paren) js) as [[rj cj]|] eqn:BJ; [|discriminate]. cbn [bind] in H.
      destruct (block_with encode None body) as [[rb cb]|] eqn:BB; [|discriminate]. cbn [bind fst snd] in H.
      eapply inv_enter; [exact V| |exact H]. apply bal_one; [reflexivity|]. apply inside_for_join. split; [exact (block_bal _ _ _ _ IB EB BB)|exact (block_bal _ _ _ _ IJ EJ BJ)].
    + destruct (block_with encode None body) as [[rb cb]|] eqn:BB; [|discriminate]. cbn [bind fst snd] in H.
      eapply inv_enter; [exact V| |exact H]. apply bal_one; [reflexivity|]. apply inside_for. exact (block_bal _ _ _ _ IB EB BB).
  - intros c cond a b IA IB EV s s' V H.
    assert (EV2 : Forall (every_value PV PC PV) a /\ match b with Some b => Forall (every_value PV PC PV) b | None => True end).
    { change (ev_all a /\ match b with Some b => ev_all b | None => True end) in EV. rewrite ev_all_forall in EV. destruct b as [b|]; [rewrite ev_all_forall in EV|]; exact EV. }
    destruct EV2 as [EA EB]. cbn [encode] in H. destruct (block_with encode None a) as [[ra ca]|] eqn:BA; [|discriminate]. cbn [bind fst snd] in H.
    destruct b as [b|]; cbn [bind] in H.
    + destruct (block_with encode None b) as [[rb cb]|] eqn:BB; [|discriminate]. cbn [bind option_map snd] in H.
      eapply inv_enter; [exact V| |exact H]. apply bal_one; [reflexivity|]. apply inside_if. split; [exact (block_bal _ _ _ _ IA EA BA)|exact (block_bal _ _ _ _ IB EB BB)].
    + eapply inv_enter; [exact V| |exact H]. apply bal_one; [reflexivity|]. apply inside_if. split; [exact (block_bal _ _ _ _ IA EA BA)|exact I].
  - intros c sel arms IH EV s s' V H. change (every_value PV PC PV (QMatch c sel arms)) with (ev_arms arms) in EV. cbn [encode] in H.
    change (fun arm acc => let '(paren, qs) := arm in bind (block_with encode paren qs) (fun r => Some (fst acc || fst r, snd acc ++ [snd r]))) with (@arm_step LI E) in H.
    destruct (fold_opt arm_step arms (false, [])) as [r|] eqn:Q; [|discriminate]. cbn [bind] in H.
    eapply inv_enter; [exact V| |exact H]. apply bal_one; [reflexivity|]. apply inside_match.
    assert (G : forall acc, Forall bal (snd acc) -> fold_opt arm_step arms acc = Some r -> Forall bal (snd r)).
    { clear -PS IH EV. induction IH as [|[paren qs] arms HA _ IHA]; intros acc FA F.
      - cbn in F. injection F as <-. exact FA.
      - destruct EV as [EV1 EV2]. rewrite ev_all_forall in EV1. rewrite fold_opt_cons in F. cbn [arm_step] in F.
        destruct (block_with encode paren qs) as [[r1 c1]|] eqn:B; [|discriminate]. cbn [bind fst snd] in F. eapply IHA; [exact EV2| |exact F]. cbn [snd].
        apply Forall_app. split; auto. constructor; [|constructor]. exact (block_bal _ _ _ _ HA EV1 B). }
    eapply G; [|exact Q]. constructor.
  - intros c f _ s s' V H. eapply inv_enter0; [exact V| |exact H]. apply bal_one; [reflexivity|exact I].
  - intros c t _ s s' V H. eapply sinv_str; eauto.
  - intros c _ s s' V H. eapply sinv_str; eauto.
  - intros c t _ s s' V H. eapply sinv_str; eauto.
  - intros c v EV s s' V H. eapply sinv_emit; [|exact V|exact H]. apply bal_one; [reflexivity|exact EV].
  - intros c n _ s s' V H. eapply sinv_emit; [|exact V|exact H]. split; [reflexivity|]. repeat constructor.
  - intros c qs IH EV s s' V H. change (every_value_in PV PC PV (PEval c qs)) with (ev_all qs) in EV. rewrite ev_all_forall in EV. rewrite encode_eval in H.
    destruct (block_with encode _ qs) as [[r1 c1]|] eqn:B; [|discriminate]. cbn [bind fst snd] in H.
    eapply sinv_emit; [|exact V|exact H]. apply (bal_app [_]); [apply ITEM; reflexivity|]. apply bal_app; [exact (block_bal _ _ _ _ IH EV B)|apply ITEM; reflexivity].
Qed.
Lemma quote_balanced qs r code : Forall (every_value PV PC PV) qs -> quote_code qs = Some (r, code) -> bal code.
Proof. intros EV H. eapply block_bal; [|exact EV|exact H]. apply Forall_forall. intros x _. apply (proj1 encode_balanced). Qed.
End Balance.
Definition triv {A : Type} (_ : A) : Prop := True.
Lemma every_trivial : (forall x : quoted, every_value triv triv triv x) /\ (forall x : string_item LI E, every_value_in triv triv triv x).
Proof.
  apply quoted_string_ind; intros; try exact I.
  - change (ev_all triv triv qs). apply ev_all_forall; auto.
  - change (ev_alls triv triv ps). apply ev_alls_forall; auto.
  - change (match join with Some (_, js) => ev_all triv triv js | None => True end /\ ev_all triv triv body). split; [|apply ev_all_forall; auto].
    destruct join as [[? js]|]; auto. apply ev_all_forall; auto.
  - change (ev_all triv triv a /\ match b with Some b => ev_all triv triv b | None => True end). split; [apply ev_all_forall; auto|].
    destruct b as [b|]; auto. apply ev_all_forall; auto.
  - change (ev_arms triv triv arms). induction H as [|[p qs] arms HA _ IH]; [exact I|]. split; auto. apply ev_all_forall; auto.
  - change (ev_all triv triv qs). apply ev_all_forall; auto.
Qed.
Lemma quote_balanced_triv qs r code : @quote_code LI E qs = Some (r, code) -> balanced triv triv code.
Proof. apply quote_balanced; [intros; exact I|]. apply Forall_forall. intros x _. apply (proj1 every_trivial). Qed.

(** Running balanced code. *)
Section StmtInd.
Context (P : stmt -> Prop).
Hypothesis H1 : forall c, match c with SFor _ _ | SForJoin _ _ _ | SIf _ _ _ | SMatch _ _ => False | _ => True end -> P c.
Hypothesis H2 : forall it b, Forall P b -> P (SFor it b).
Hypothesis H3 : forall it b j, Forall P b -> Forall P j -> P (SForJoin it b j).
Hypothesis H4 : forall c a b, Forall P a -> match b with Some b => Forall P b | None => True end -> P (SIf c a b).
Hypothesis H5 : forall sel arms, Forall (Forall P) arms -> P (SMatch sel arms).
Fixpoint stmt_ind' (c : stmt) : P c :=
  let all := fix all (l : list stmt) : Forall P l :=
    match l with [] => Forall_nil _ | x :: l' => Forall_cons _ (stmt_ind' x) (all l') end in
  match c with
  | SFor it b => H2 it b (all b)
  | SForJoin it b j => H3 it b j (all b) (all j)
  | SIf c a b => H4 c a b (all a) (match b with Some b => all b | None => I end)
  | SMatch sel arms => H5 sel arms
      ((fix alla (l : list (list stmt)) : Forall (Forall P) l :=
          match l with [] => Forall_nil _ | a :: l' => Forall_cons _ (all a) (alla l') end) arms)
  | c => H1 c I
  end.
End StmtInd.
Lemma add_net (x : item LI) t : net_indentation (items (add_item x t)) = (net_indentation (items t) + indentation_of x)%Z.
Proof. apply add_item_net. Qed.
Notation net st := (net_indentation (items (snd (st : E * tokens LI)))).
Notation neutral := (balanced (@neutral_value LI E) (@neutral_scope LI E)).
Lemma execs_net code : Forall (fun c => inside_balanced neutral_value neutral_scope c -> forall st, net (exec c st) = (net st + stmt_level c)%Z) code ->
  Forall (inside_balanced neutral_value neutral_scope) code -> forall st, net (execs code st) = (net st + levels code)%Z.
Proof.
  induction 1 as [|c code H _ IH]; intros F st; inversion F; subst; [cbn; lia|].
  change (execs (c :: code) st) with (execs code (exec c st)). rewrite IH by auto. rewrite H by auto. cbn [levels]. lia.
Qed.
Lemma exec_net c : inside_balanced neutral_value neutral_scope c -> forall st, net (exec c st) = (net st + stmt_level c)%Z.
Proof.
  assert (BLK : forall b, neutral b -> Forall (fun c => inside_balanced neutral_value neutral_scope c -> forall st, net (exec c st) = (net st + stmt_level c)%Z) b ->
    forall st, net (execs b st) = net st).
  { intros b [L F] H st. rewrite execs_net by auto. lia. }
  induction c using stmt_ind'; intros IB st.
  - assert (AI : forall x, append (VItem x) (snd st) = add_item x (snd st)) by reflexivity.
    assert (ZI : forall x : item LI, indentation_of x = 0%Z -> net_indentation (items (add_item x (snd st))) = net st) by (intros x Hx; rewrite add_net, Hx; lia).
    destruct c; try contradiction; cbn [exec stmt_level fst snd]; rewrite ?Z.add_0_r.
    + apply (ZI (Literal (Static s))). reflexivity.
    + apply ZI. exact IB.
    + specialize (IB (fst st) (snd st)). destruct (v (fst st)) as [w e]. exact IB.
    + apply (ZI Space). reflexivity.
    + apply (ZI Push). reflexivity.
    + apply (ZI Line). reflexivity.
    + apply (add_net (Indentation 1)).
    + apply (add_net (Indentation (-1))).
    + specialize (IB (fst st) (snd st)). destruct (code (fst st)) as [w e]. exact IB.
    + reflexivity.
    + reflexivity.
  - rewrite inside_for in IB. cbn [exec stmt_level]. rewrite Z.add_0_r. destruct (it (fst st)) as [bs e].
    assert (G : forall bs st, net (fold_state (fun b0 st => fold_state exec b (b0 (fst st), snd st)) bs st) = net st).
    { clear bs st e. induction bs as [|b0 bs IHb]; intros st; [reflexivity|]. cbn [fold_state]. rewrite IHb. apply (BLK b IB H (b0 (fst st), snd st)). }
    apply (G bs (e, snd st)).
  - rewrite inside_for_join in IB. destruct IB as [B1 B2]. cbn [exec stmt_level]. rewrite Z.add_0_r. destruct (it (fst st)) as [bs e].
    assert (G : forall bs st, net (join_loop (fold_state exec b) (fold_state exec j) bs st) = net st).
    { clear bs st e. induction bs as [|b0 bs IHb]; intros st; [reflexivity|]. cbn [join_loop].
      change ((fix go (bs : list (E -> E)) (st : E * tokens LI) {struct bs} := _) bs) with (join_loop (fold_state exec b) (fold_state exec j) bs).
      rewrite IHb. destruct bs; [apply (BLK b B1 H (b0 (fst st), snd st))|]. etransitivity; [apply (BLK j B2 H0)|]. apply (BLK b B1 H (b0 (fst st), snd st)). }
    apply (G bs (e, snd st)).
  - rewrite inside_if in IB. destruct IB as [B1 B2]. cbn [exec stmt_level]. rewrite Z.add_0_r. destruct (c (fst st)) as [yes e].
    destruct yes; [apply (BLK a B1 H (e, snd st))|]. destruct b as [b|]; [apply (BLK b B2 H0 (e, snd st))|reflexivity].
  - rewrite inside_match in IB. cbn [exec stmt_level]. rewrite Z.add_0_r. destruct (sel (fst st)) as [i e].
    revert i. induction H as [|a arms HA _ IHA]; intros i; [destruct i; reflexivity|]. inversion IB; subst. destruct i as [|i].
    + apply (BLK a H1 HA (e, snd st)).
    + apply IHA; auto.
Qed.
Lemma quote_in_net (qs : list quoted) e t e' t' : Forall (every_value neutral_value neutral_scope neutral_value) qs -> quote_in qs e t = Some (e', t') ->
  net_indentation (items t') = net_indentation (items t).
Proof.
  intros EV. unfold quote_in. destruct (quote_code qs) as [[r code]|] eqn:Q; [|discriminate]. cbn [option_map snd]. intros [= X].
  assert (B : neutral code).
  { eapply quote_balanced; [|exact EV|exact Q]. intros s e0 t0. etransitivity; [apply (add_net (Literal (Static s)))|]. apply Z.add_0_r. }
  destruct B as [L F]. pose proof (execs_net code) as N. specialize (N ltac:(apply Forall_forall; intros c _; apply exec_net) F (e, t)). rewrite X, L in N. cbn [snd] in N. lia.
Qed.

(** ** Control flow *)
Lemma code_single x c b (g : list stmt) : (forall s, encode x s = bind (step c (require b s)) (fun s => Some (emit g (flush s)))) ->
  @quote_code LI E [x] = Some (b, g).
Proof.
  intros H. unfold quote_code, block_with. rewrite fold_opt_cons, H.
  assert (ST : step c (require b (encoder_new None None)) = Some (set_last c (require b (@encoder_new LI E None None)))) by reflexivity.
  cbn [option_map]. rewrite ST. cbn. rewrite app_nil_r. reflexivity.
Qed.
Lemma code_single0 x c (g : list stmt) : (forall s, encode x s = bind (step c s) (fun s => Some (emit g (flush s)))) ->
  @quote_code LI E [x] = Some (false, g).
Proof. intros H. apply (code_single x c false). intros s. rewrite H, require_false. reflexivity. Qed.
Lemma quote_in_code qs r code e t : @quote_code LI E qs = Some (r, code) -> quote_in qs e t = Some (execs code (e, t)).
Proof. intros H. unfold quote_in. rewrite H. reflexivity. Qed.
Lemma runs_code qs r code : @quote_code LI E qs = Some (r, code) -> forall st, runs qs st = execs code st.
Proof. intros H [e t]. unfold runs. rewrite (quote_in_code _ _ _ _ _ H). reflexivity. Qed.

(** Accepted, and the code. *)
Lemma code_if c cond a b : @quote_code LI E [QIf c cond a b] =
  bind (quote_code a) (fun ra => bind (match b with Some qs => bind (quote_code qs) (fun r => Some (Some r)) | None => Some None end) (fun rb =>
    Some (fst ra || match rb with Some (r, _) => r | None => false end, [SIf cond (snd ra) (option_map snd rb)]))).
Proof.
  unfold quote_code at 2. destruct (block_with encode None a) as [ra|] eqn:QA.
  - cbn [bind].
    assert (QB : match b with Some qs => bind (quote_code qs) (fun r => Some (Some r)) | None => Some None end =
       match b with Some qs => bind (block_with (@encode LI E) None qs) (fun r => Some (Some r)) | None => Some None end) by (destruct b; reflexivity).
    rewrite QB. destruct (match b with Some qs => bind (block_with (@encode LI E) None qs) (fun r => Some (Some r)) | None => Some None end) as [rb|] eqn:Q.
    + cbn [bind]. eapply code_single. intros s. cbn [encode]. rewrite QA. cbn [bind]. rewrite Q. reflexivity.
    + cbn [bind]. unfold quote_code, block_with at 1. rewrite fold_opt_cons. cbn [encode]. rewrite QA. cbn [bind]. rewrite Q. reflexivity.
  - cbn [bind]. unfold quote_code, block_with at 1. rewrite fold_opt_cons. cbn [encode]. rewrite QA. reflexivity.
Qed.
Lemma code_loop c it join body : @quote_code LI E [QLoop c it join body] =
  bind (match join with Some (paren, js) => bind (quote_code (in_parens (Some paren) js)) (fun r => Some (Some r)) | None => Some None end) (fun rj =>
  bind (quote_code body) (fun rb => Some (match rj with Some (r, _) => r | None => false end || fst rb,
    [match rj with Some (_, cj) => SForJoin it (snd rb) cj | None => SFor it (snd rb) end]))).
Proof.
  assert (QJ : match join with Some (paren, js) => bind (quote_code (in_parens (Some paren) js)) (fun r => Some (Some r)) | None => Some None end =
     match join with Some (paren, js) => bind (block_with (@encode LI E) (Some paren) js) (fun r => Some (Some r)) | None => Some None end)
    by (destruct join as [[p js]|]; [rewrite in_parens_code|]; reflexivity).
  rewrite QJ. clear QJ. destruct (match join with Some (paren, js) => bind (block_with (@encode LI E) (Some paren) js) (fun r => Some (Some r)) | None => Some None end) as [rj|] eqn:QJ.
  - cbn [bind]. unfold quote_code at 2. destruct (block_with encode None body) as [rb|] eqn:QB.
    + cbn [bind]. eapply code_single. intros s. cbn [encode]. rewrite QJ. cbn [bind]. rewrite QB. reflexivity.
    + unfold quote_code, block_with at 1. rewrite fold_opt_cons. cbn [encode]. rewrite QJ. cbn [bind]. rewrite QB. reflexivity.
  - unfold quote_code, block_with at 1. rewrite fold_opt_cons. cbn [encode]. rewrite QJ. reflexivity.
Qed.
Fixpoint arm_codes (arms : list (option cursor * list quoted)) : option (list (bool * list stmt)) :=
  match arms with
  | [] => Some []
  | (paren, qs) :: arms' => bind (quote_code (in_parens paren qs)) (fun r => bind (arm_codes arms') (fun rs => Some (r :: rs)))
  end.
Lemma arm_codes_fold arms : forall acc, fold_opt (@arm_step LI E) arms acc =
  bind (arm_codes arms) (fun rs => Some (fst acc || existsb fst rs, snd acc ++ map snd rs)).
Proof.
  induction arms as [|[paren qs] arms IH]; intros [f cs].
  - cbn. rewrite orb_false_r, app_nil_r. reflexivity.
  - rewrite fold_opt_cons. cbn [arm_step arm_codes]. rewrite <- in_parens_code. destruct (block_with encode paren qs) as [[r c]|]; [|reflexivity]. cbn [bind].
    rewrite IH. destruct (arm_codes arms) as [rs|]; [|reflexivity]. cbn [bind fst snd existsb map]. rewrite orb_assoc, <- app_assoc. reflexivity.
Qed.
Lemma code_match c sel arms : @quote_code LI E [QMatch c sel arms] =
  bind (arm_codes arms) (fun rs => Some (existsb fst rs, [SMatch sel (map snd rs)])).
Proof.
  pose proof (arm_codes_fold arms (false, [])) as F. cbn [fst snd orb app] in F. destruct (arm_codes arms) as [rs|]; cbn [bind] in *.
  - eapply code_single. intros s. cbn [encode]. change (fun arm acc => let '(paren, qs) := arm in bind (block_with encode paren qs) (fun r => Some (fst acc || fst r, snd acc ++ [snd r]))) with (@arm_step LI E).
    rewrite F. reflexivity.
  - unfold quote_code, block_with at 1. rewrite fold_opt_cons. cbn [encode].
    change (fun arm acc => let '(paren, qs) := arm in bind (block_with encode paren qs) (fun r => Some (fst acc || fst r, snd acc ++ [snd r]))) with (@arm_step LI E).
    rewrite F. reflexivity.
Qed.

Lemma loop_turns (body : list stmt) bs : forall st, fold_state (fun b st => fold_state exec body (b (fst st), snd st)) bs st =
  in_turn (map (fun b st => execs body (b (fst st), snd st)) bs) st.
Proof. induction bs as [|b bs IH]; intros st; [reflexivity|]. cbn [fold_state map]. rewrite IH. reflexivity. Qed.
Lemma join_turns (body join : list stmt) bs : forall st, join_loop (fold_state exec body) (fold_state exec join) bs st =
  in_turn (intersperse (execs join) (map (fun b st => execs body (b (fst st), snd st)) bs)) st.
Proof.
  induction bs as [|b bs IH]; intros st; [reflexivity|]. cbn [join_loop map intersperse].
  change ((fix go (bs : list (E -> E)) (st : E * tokens LI) {struct bs} := _) bs) with (join_loop (fold_state exec body) (fold_state exec join) bs).
  rewrite IH. destruct bs as [|b2 bs]; reflexivity.
Qed.
Lemma in_turn_ext {S} (f g : list (S -> S)) : Forall2 (fun a b => forall s, a s = b s) f g -> forall s, in_turn f s = in_turn g s.
Proof. induction 1 as [|a b f g H _ IH]; intros s; [reflexivity|]. unfold in_turn in *. cbn. rewrite H. apply IH. Qed.
Lemma forall2_intersperse {A} (R : A -> A -> Prop) x y : R x y -> forall f g, Forall2 R f g -> Forall2 R (intersperse x f) (intersperse y g).
Proof.
  intros H. induction 1 as [|a b f g H1 H2 IH]; [constructor|]. cbn [intersperse]. constructor; auto. destruct H2; [constructor|]. constructor; auto.
Qed.
End Control.
