(** * Leaving a quote early (C77).

    Vocabulary: [Exit.v] (the code of a quote that can be left), [SpecExit.v],
    [SpecMacro.v] (meaning of quotes), [SpecQuote.v].  [gone e] says that the Rust
    code evaluated last has left the function. *)
From Verif Require Import Str Tokens SpecTokens TokensRun TokensFacts Values ValuesFacts Fmt SpecFmt
  Macro SpecMacro SpecQuote MacroFacts MacroSem MacroTokens MacroControl PropsMacro PropsControl Exit SpecExit ExitFacts.

(** A quote that is not left is quoted as ever. *)
Theorem C77_stays : forall LI E gone (qs : list (quoted_item LI E)) e t e' t',
  quote_in_until gone qs e t = Some (e', t') -> gone e' = false -> quote_in qs e t = Some (e', t').
Proof.
  intros LI E gone qs e t e' t' H G. unfold quote_in_until, quote_in in *. destruct (quote_code qs) as [[r code]|]; [|discriminate].
  cbn [option_map snd] in *. injection H as H. f_equal. rewrite <- H. symmetry. apply untils_exec. rewrite H. exact G.
Qed.
Print Assumptions C77_stays.

(** Left or not: the stream is continued by a first part of what the quote would
    supply, whatever is in the stream. *)
Theorem C77_kept : forall LI E gone (qs : list (quoted_item LI E)) e,
  accepted qs -> gone e = false -> exists its1 its2 e1 e2, forall t,
  quote_in_until gone qs e t = Some (e1, extend its1 t) /\
  quote_in qs e t = Some (e2, extend (its1 ++ its2) t) /\
  (gone e1 = false -> its2 = [] /\ e1 = e2).
Proof.
  intros LI E gone qs e A G. unfold quote_in_until, quote_in, accepted in *. destruct (quote_code qs) as [[r code]|]; [|congruence].
  destruct (untils_cuts gone code e G) as (i1 & i2 & e1 & e2 & H). exists i1, i2, e1, e2. intros t. destruct (H t) as (H1 & H2 & H3).
  cbn [option_map snd]. rewrite H1, H2. split; [reflexivity|]. split; [reflexivity|]. intros K. destruct (H3 K). auto.
Qed.
Print Assumptions C77_kept.

(** Exactly: when an element leaves the quote, be it in brackets or not, the stream
    has all that precedes it and the separation from it, and what the element
    itself supplies until then; nothing that follows.  Except that a block
    [$(ref _ => ..)], which does not use the stream, takes the static text directly
    in front of it with it. *)
Theorem C77_element : forall LI E gone (qs pre : list (quoted_item LI E)) c x post e t e1 t1 e2 t2,
  all_tokens qs = all_tokens pre ++ (c, LOther x) :: post ->
  accepted qs -> gone e = false ->
  quote_in_until gone pre e t = Some (e1, t1) -> gone e1 = false ->
  quote_in_until gone [x] e1
    (extend (join_texts [] (match x with QEffect _ _ => settled (up_to pre c e) | _ => up_to pre c e end)) t) = Some (e2, t2) ->
  gone e2 = true ->
  quote_in_until gone qs e t = Some (e2, t2).
Proof.
  intros LI E gone qs pre c x post e t e1 t1 e2 t2 TK A G QP G1 QX G2. unfold accepted in A.
  destruct (quote_code qs) as [[r code]|] eqn:QC; [|congruence].
  destruct (element_at gone qs pre c x post r code e t e1 t1 TK QC G QP G1) as (cx & rest & its & -> & -> & cx0 & -> & NX & U).
  unfold quote_in_until in *. rewrite QC. cbn [option_map snd]. destruct (quote_code [x]) as [[rx cd]|]; [|congruence]. cbn [option_map snd] in QX.
  injection QX as QX. f_equal. rewrite <- app_assoc, untils_app by exact G. rewrite U. cbn [fst]. rewrite G1.
  rewrite untils_app by exact G1. rewrite QX. cbn [fst]. rewrite G2. reflexivity.
Qed.
Print Assumptions C77_element.

(** An interpolated expression that leaves supplies nothing. *)
Theorem C77_expression : forall LI E gone (qs pre : list (quoted_item LI E)) c v post e t e1 t1 w e2,
  all_tokens qs = all_tokens pre ++ (c, LOther (QEval c v)) :: post ->
  accepted qs -> gone e = false ->
  quote_in_until gone pre e t = Some (e1, t1) -> gone e1 = false ->
  v e1 = (w, e2) -> gone e2 = true ->
  quote_in_until gone qs e t = Some (e2, extend (join_texts [] (up_to pre c e)) t).
Proof.
  intros LI E gone qs pre c v post e t e1 t1 w e2 TK A G QP G1 V G2.
  eapply (C77_element LI E gone qs pre c (QEval c v) post); eauto.
  unfold quote_in_until. rewrite (code_single0 (QEval c v) c [SAppend v]) by reflexivity. cbn [option_map snd execs_until fold_until exec_until fst].
  rewrite V. unfold unless_gone. cbn [fst]. rewrite G2. cbn [fst]. rewrite G2. reflexivity.
Qed.
Print Assumptions C77_expression.

(** Then the indentation left in the stream is that of the line the expression is
    on, provided that the values in front of it have none. *)
Theorem C77_level : forall LI E gone (qs pre : list (quoted_item LI E)) c v post e t e1 t1 w e2 t2,
  all_tokens qs = all_tokens pre ++ (c, LOther (QEval c v)) :: post ->
  accepted qs -> gone e = false ->
  quote_in_until gone pre e t = Some (e1, t1) -> gone e1 = false ->
  v e1 = (w, e2) -> gone e2 = true ->
  Forall (every_value neutral_value neutral_scope neutral_value) pre ->
  quote_in_until gone qs e t = Some (e2, t2) ->
  net_indentation (items t2) = (net_indentation (items t) +
    Z.of_nat (depth (m_place (enter_chunks c (fold_left (fun st x => mean x st) pre (mk_mstate None [] e))))))%Z.
Proof.
  intros LI E gone qs pre c v post e t e1 t1 w e2 t2 TK A G QP G1 V G2 EV H.
  rewrite (C77_expression LI E gone qs pre c v post e t e1 t1 w e2 TK A G QP G1 V G2) in H. injection H as <-. rewrite extend_net.
  set (pre' := pre ++ [QText c []]).
  assert (A' : accepted pre').
  { unfold accepted in *. unfold quote_code, block_with, pre' in *. cbn [option_map] in *.
    rewrite fold_tokens, TK, fold_opt_app, <- fold_tokens in A. rewrite fold_opt_app.
    pose proof (fold_ok pre (proj2 (Forall_forall _ _) (fun x _ => proj1 elements x)) (@encoder_new LI E None None) None ltac:(cbn; auto)) as FO.
    destruct (fold_opt encode pre (encoder_new None None)) as [s1|]; [|cbn [bind] in A; congruence]. destruct FO as (w1 & ks & A1 & SE & _). cbn [bind] in *.
    rewrite fold_opt_cons in A. pose proof (leaf_step c (LOther (QEval c v)) s1 w1 (conj eq_refl eq_refl) A1) as L. pose proof (step_enter c s1 w1 A1) as S1.
    destruct (enter c w1) as [[p w2]|]; [|rewrite L in A; cbn [bind] in A; congruence]. destruct S1 as (s2 & g & ST & _ & SE2 & _).
    cbn [fold_opt encode]. rewrite ST. cbn [bind fold_opt]. unfold finalize. cbn [buffer_push e_span_end]. rewrite SE2, SE. discriminate. }
  assert (EV' : Forall (every_value neutral_value neutral_scope neutral_value) pre').
  { apply Forall_app. split; [exact EV|]. constructor; [exact I|constructor]. }
  unfold accepted in A'. destruct (quote_code pre') as [[r code]|] eqn:QC; [|congruence].
  pose proof (quote_supplies _ _ _ QC e (new : tokens LI)) as QS.
  assert (QI : quote_in pre' e new = Some (execs code (e, new))) by (unfold quote_in; rewrite QC; reflexivity). rewrite QS in QI.
  pose proof (quote_in_net _ _ _ _ _ EV' QI) as N. rewrite extend_net in N.
  unfold quote_mean, block_mean, block_mean_with, pre' in N. rewrite fold_left_app in N. cbn [fold_left mean fst put m_chunks m_place] in N.
  assert (J : forall cs b, join_texts b (cs ++ [KText []]) = @join_texts LI b cs).
  { induction cs as [|[s|is_] cs IH]; intros b; cbn [app join_texts]; rewrite ?app_nil_r, ?IH; reflexivity. }
  cbn [start_of] in N. rewrite J, net_app in N.
  unfold up_to. set (st := enter_chunks c _) in *.
  revert N. generalize (net_indentation (@items LI new)) (net_indentation (join_texts [] (m_chunks st))). intros n0 n1.
  destruct (Nat.eqb_spec (depth (m_place st)) 0) as [D|D]; cbn [net_indentation indentation_of]; lia.
Qed.
Print Assumptions C77_level.

(** Loops: round after round until one leaves, with the separator between them. *)
Lemma runs_until_code {LI E} gone (qs : list (quoted_item LI E)) r code : quote_code qs = Some (r, code) ->
  forall st, runs_until gone qs st = execs_until gone code st.
Proof. intros H [e t]. unfold runs_until, quote_in_until. rewrite H. reflexivity. Qed.
Lemma unless_turn {LI E} (gone : E -> bool) f fs (st : E * tokens LI) g : (forall st, g st = in_turn_until (was_left gone) fs st) ->
  unless_gone gone (f st) g = in_turn_until (was_left gone) (f :: fs) st.
Proof. intros H. cbn [in_turn_until]. unfold unless_gone, was_left. rewrite H. reflexivity. Qed.
Lemma turn_end {LI E} (gone : E -> bool) c (st : E * tokens LI) : execs_until gone [c] st = exec_until gone c st.
Proof. unfold execs_until. cbn [fold_until]. destruct (gone _); reflexivity. Qed.
Lemma turn_app {S} (gone : S -> bool) a : forall b s, gone s = false -> in_turn_until gone (a ++ b) s =
  if gone (in_turn_until gone a s) then in_turn_until gone a s else in_turn_until gone b (in_turn_until gone a s).
Proof.
  induction a as [|f a IH]; intros b s G; cbn; [rewrite G; reflexivity|]. destruct (gone (f s)) eqn:G1; [rewrite G1; reflexivity|]. apply IH, G1.
Qed.
Theorem C77_loop : forall LI E gone c it (body : list (quoted_item LI E)) e t bs e1,
  accepted [QLoop c it None body] -> it e = (bs, e1) ->
  runs_until gone [QLoop c it None body] (e, t) =
  in_turn_until (was_left gone) (sets (fun _ => e1) :: concat (map (fun b => [sets b; runs_until gone body]) bs)) (e, t).
Proof.
  intros LI E gone c it body e t bs e1 A IT. unfold accepted in A. rewrite code_loop in A. pose proof (code_loop c it None body) as C. cbn [bind] in *.
  destruct (quote_code body) as [[rb cb]|] eqn:QB; cbn [bind fst snd] in *; [|congruence]. rewrite (runs_until_code _ _ _ _ C), turn_end.
  cbn [exec_until fst snd]. rewrite IT. apply (unless_turn gone (sets (fun _ => e1)) _ (e, t)). clear -QB.
  intros st. revert st. induction bs as [|b bs IH]; intros st; [reflexivity|]. rewrite until_cons. cbn [map concat app in_turn_until].
  change (was_left gone (sets b st)) with (gone (b (fst st))).
  unfold unless_gone. cbn [fst]. destruct (gone (b (fst st))) eqn:G1; cbn [fst]; [rewrite G1; reflexivity|]. 
  rewrite (runs_until_code _ _ _ _ QB). unfold was_left at 1, sets at 1 2 3. fold (execs_until gone cb).
  destruct (gone (fst (execs_until gone cb (b (fst st), snd st)))); [reflexivity|]. apply IH.
Qed.
Print Assumptions C77_loop.
Theorem C77_join : forall LI E gone c it paren js (body : list (quoted_item LI E)) e t bs e1,
  accepted [QLoop c it (Some (paren, js)) body] -> it e = (bs, e1) ->
  runs_until gone [QLoop c it (Some (paren, js)) body] (e, t) =
  in_turn_until (was_left gone) (sets (fun _ => e1) ::
    concat (intersperse [runs_until gone (in_parens (Some paren) js)] (map (fun b => [sets b; runs_until gone body]) bs))) (e, t).
Proof.
  intros LI E gone c it paren js body e t bs e1 A IT. unfold accepted in A. rewrite code_loop in A. pose proof (code_loop c it (Some (paren, js)) body) as C. cbv beta iota in A, C.
  destruct (quote_code (in_parens (Some paren) js)) as [[rj cj]|] eqn:QJ; cbn [bind] in A, C; [|congruence].
  destruct (quote_code body) as [[rb cb]|] eqn:QB; cbn [bind fst snd] in *; [|congruence]. rewrite (runs_until_code _ _ _ _ C), turn_end.
  cbn [exec_until fst snd]. rewrite IT. apply (unless_turn gone (sets (fun _ => e1)) _ (e, t)). clear -QB QJ.
  induction bs as [|b bs IH]; intros st; [reflexivity|]. rewrite join_until_cons. cbn [map].
  destruct bs as [|b2 bs].
  - cbn [map intersperse concat app]. apply (unless_turn gone (sets b) [runs_until gone body] st). clear st. intros st.
    rewrite <- (unless_turn gone (runs_until gone body) [] st (fun st => st)) by reflexivity. rewrite (runs_until_code _ _ _ _ QB).
    unfold unless_gone. cbn [join_until]. fold (execs_until gone cb). destruct (gone (fst (execs_until gone cb st))) eqn:G1; reflexivity.
  - change (concat (intersperse ?j (?x :: map ?f (?y :: ?l)))) with (x ++ j ++ concat (intersperse j (map f (y :: l)))).
    cbn [app]. apply (unless_turn gone (sets b)). clear st. intros st.
    rewrite <- (unless_turn gone (runs_until gone body) _ st (fun st => unless_gone gone (runs_until gone (in_parens (Some paren) js) st) (join_until gone (execs_until gone cb) (execs_until gone cj) (b2 :: bs)))).
    + rewrite (runs_until_code _ _ _ _ QB). unfold unless_gone. fold (execs_until gone cb). fold (execs_until gone cj).
      destruct (gone (fst (execs_until gone cb st))); [reflexivity|]. rewrite (runs_until_code _ _ _ _ QJ). reflexivity.
    + intros st1. apply (unless_turn gone (runs_until gone (in_parens (Some paren) js))). exact IH.
Qed.
Print Assumptions C77_join.
(** Conditions: first the condition, then the branch it selects. *)
Theorem C77_if : forall LI E gone c cond (a : list (quoted_item LI E)) b e t yes e1,
  accepted [QIf c cond a b] -> cond e = (yes, e1) ->
  runs_until gone [QIf c cond a b] (e, t) =
  in_turn_until (was_left gone) (sets (fun _ => e1) :: if yes then [runs_until gone a] else match b with Some b => [runs_until gone b] | None => [] end) (e, t).
Proof.
  intros LI E gone c cond a b e t yes e1 A IC. unfold accepted in A. rewrite code_if in A. pose proof (code_if c cond a b) as C.
  destruct (quote_code a) as [[ra ca]|] eqn:QA; cbn [bind fst snd] in *; [|congruence].
  assert (ONE : forall f (st : E * tokens LI), in_turn_until (was_left gone) [f] st = f st) by (intros f st; cbn; destruct (was_left gone (f st)); reflexivity).
  destruct b as [b|]; cbn [bind fst snd] in *.
  - destruct (quote_code b) as [[rb cb]|] eqn:QB; cbn [bind fst snd option_map] in *; [|congruence].
    rewrite (runs_until_code _ _ _ _ C), turn_end. cbn [exec_until fst snd]. rewrite IC. apply (unless_turn gone (sets (fun _ => e1)) _ (e, t)).
    intros st. destruct yes; rewrite ONE; symmetry; [exact (runs_until_code _ _ _ _ QA st)|exact (runs_until_code _ _ _ _ QB st)].
  - rewrite (runs_until_code _ _ _ _ C), turn_end. cbn [exec_until fst snd]. rewrite IC. apply (unless_turn gone (sets (fun _ => e1)) _ (e, t)).
    intros st. destruct yes; [rewrite ONE; symmetry; exact (runs_until_code _ _ _ _ QA st)|reflexivity].
Qed.
Print Assumptions C77_if.
(** Matches: first what is matched, then the arm. *)
Theorem C77_match : forall LI E gone c sel (arms : list (option cursor * list (quoted_item LI E))) e t i e1 paren qs,
  accepted [QMatch c sel arms] -> sel e = (i, e1) -> nth_error arms i = Some (paren, qs) ->
  runs_until gone [QMatch c sel arms] (e, t) =
  in_turn_until (was_left gone) [sets (fun _ => e1); runs_until gone (in_parens paren qs)] (e, t).
Proof.
  intros LI E gone c sel arms e t i e1 paren qs A IS NT. unfold accepted in A. rewrite code_match in A. pose proof (code_match c sel arms) as C.
  assert (K : match arm_codes arms with
    | Some rs => exists r code, nth_error rs i = Some (r, code) /\ quote_code (in_parens paren qs) = Some (r, code)
    | None => True
    end).
  { clear -NT. revert i NT. induction arms as [|[p q] arms IH]; intros [|i] NT; try discriminate; cbn [nth_error] in NT; cbn [arm_codes].
    - injection NT as -> ->. destruct (quote_code (in_parens paren qs)) as [[r code]|] eqn:Q; cbn [bind]; [|exact I]. destruct (arm_codes arms); cbn [bind]; [|exact I].
      exists r, code. auto.
    - destruct (quote_code (in_parens p q)); cbn [bind]; [|exact I]. specialize (IH i NT). destruct (arm_codes arms) as [rs|]; cbn [bind]; [exact IH|exact I]. }
  destruct (arm_codes arms) as [rs|]; cbn [bind] in *; [|congruence]. destruct K as (r & code & NR & QC).
  rewrite (runs_until_code _ _ _ _ C), turn_end. cbn [exec_until fst snd]. rewrite IS. apply (unless_turn gone (sets (fun _ => e1)) _ (e, t)).
  intros st. rewrite pick_until, (map_nth_error snd _ _ NR). cbn [snd in_turn_until]. rewrite <- (runs_until_code _ _ _ _ QC).
  destruct (was_left gone (runs_until gone (in_parens paren qs) st)); reflexivity.
Qed.
Print Assumptions C77_match.

(** Two rounds of the loop and then an expression that fails.
    <<
    f {
        $(for x in [1, 2, 3] => $(g(x)?);)
        h
    }
    >> *)
Definition demo_body : list (quoted_item nat nat) :=
  [QEval (word 2 28 $"$(g(x)?)") (fun e => (VInt (Z.of_nat e), if e =? 3 then 0 else e)); tok 2 36 $";"].
Definition demo_for : quoted_item nat nat :=
  QLoop (word 2 4 $"$(for x in [1, 2, 3] => $(g(x)?);)") (fun e => (map (fun x _ => x) [1; 2; 3], e)) None demo_body.
Definition demo_exit : list (quoted_item nat nat) :=
  [tok 1 0 $"f"; QGroup (mk_cursor (mk_pos 1 2) (mk_pos 4 1)) Brace [demo_for; tok 3 4 $"h"]].
Definition demo_left (e : nat) : bool := e =? 0.
Example C77_example : accepted demo_exit /\
  option_map (fun r => (fst r, items (snd r))) (quote_in_until demo_left demo_exit 7 new) =
  Some (0, [Literal (Static $"f"); Space; Literal (Static $"{"); Indentation 1;
            Literal (Box $"1"); Literal (Static $";"); Literal (Box $"2"); Literal (Static $";")]).
Proof. split; [discriminate|vm_compute; reflexivity]. Qed.
(** It meets the hypotheses. *)
Example C77_element_example : exists post, let pre := [tok 1 0 $"f"; tok 1 2 $"{"] in
  all_tokens demo_exit = all_tokens pre ++ (word 2 4 $"$(for x in [1, 2, 3] => $(g(x)?);)", LOther demo_for) :: post /\
  (exists t1, quote_in_until demo_left pre 7 (new : tokens nat) = Some (7, t1)) /\ demo_left 7 = false /\
  Forall (every_value neutral_value neutral_scope neutral_value) pre /\
  join_texts [] (up_to pre (word 2 4 $"$(for x in [1, 2, 3] => $(g(x)?);)") 7) = [Literal (Static $"f"); Space; Literal (Static $"{"); Indentation 1] /\
  exists t2, quote_in_until demo_left [demo_for] 7 (extend [Literal (Static $"f"); Space; Literal (Static $"{"); Indentation 1] new) = Some (0, t2).
Proof.
  eexists. cbv zeta. split; [reflexivity|]. split; [eexists; vm_compute; reflexivity|]. split; [reflexivity|]. split; [repeat constructor|].
  split; [vm_compute; reflexivity|]. eexists. vm_compute. reflexivity.
Qed.
Example C77_expression_example : exists post, let pre := [] in
  all_tokens demo_body = all_tokens pre ++ (word 2 28 $"$(g(x)?)", LOther (QEval (word 2 28 $"$(g(x)?)") (fun e => (VInt (Z.of_nat e), if e =? 3 then 0 else e)))) :: post /\
  accepted demo_body /\ quote_in_until demo_left pre 3 (new : tokens nat) = Some (3, new).
Proof. eexists. cbv zeta. split; [reflexivity|]. split; [discriminate|reflexivity]. Qed.

(** Finding: leaving a quote inside of an indented line leaves the indentation in
    the stream.  What is written later to the same stream is indented.
    <<
    f {
        $(g()?)
    }
    >> *)
Theorem C77_indentation_refuted : exists (qs : list (quoted_item unit bool)) t,
  qs = [tok 1 0 $"f"; QGroup (mk_cursor (mk_pos 1 2) (mk_pos 3 1)) Brace [QEval (word 2 4 $"$(g()?)") (fun _ => (VStr $"g", true))]] /\
  quote_in_until (fun left => left) qs false new = Some (true, t) /\
  net_indentation (items t) = 1%Z /\
  to_string unit_lang (append (VStr $"later") (push (append (VStr $"next") (push t)))) =
  Some ($"f {" ++ [10%N] ++ $"    next" ++ [10%N] ++ $"    later").
Proof. eexists _, _. split; [reflexivity|]. split; [vm_compute; reflexivity|]. split; vm_compute; reflexivity. Qed.
Print Assumptions C77_indentation_refuted.

(** Finding: the text directly in front of a block that does not use the stream is
    supplied after the block has run; if the block leaves, it is lost.
    <<
    before text$(ref _ => g()?;) after
    >> *)
Theorem C77_text_refuted : exists (qs : list (quoted_item unit bool)) t,
  qs = [tok 1 0 $"before"; tok 1 7 $"text"; QEffect (word 1 11 $"$(ref _ => g()?;)") (fun _ => true); tok 1 29 $"after"] /\
  quote_in_until (fun left => left) qs false new = Some (true, t) /\
  items t = [Literal (Static $"before"); Space].
Proof. eexists _, _. split; [reflexivity|]. split; vm_compute; reflexivity. Qed.
Print Assumptions C77_text_refuted.
