(** * Properties of the order in which the code in quotes runs: C82.

    Vocabulary: [SpecEvalOrder.v]; model: [Macro.v]. *)
From Verif Require Import Str Tokens Values ValuesFacts Macro SpecMacro SpecQuote MacroFacts MacroSem RoundsFacts SpecEvalOrder.

Section Order.
Context {LI E : Type}.
Notation quoted := (quoted_item LI E).
Definition all_of := fix all (l : list quoted) (e : E) : E := match l with [] => e | x :: l' => all l' (effect x e) end.
Definition alls_of := fix alls (l : list (string_item LI E)) (e : E) : E := match l with [] => e | x :: l' => alls l' (effect_in x e) end.
Definition has_effect (x : quoted) : Prop := forall st : mstate LI E, m_env (mean x st) = effect x (m_env st).
Definition has_effect_in (x : string_item LI E) : Prop := forall a ks e, snd (string_mean x (a, ks, e)) = effect_in x e.
Lemma enter_same c (st : mstate LI E) : m_env (enter_chunks c st) = m_env st.
Proof. unfold enter_chunks. destruct (enter c (m_place st)) as [[p w]|]; reflexivity. Qed.
Lemma fold_effect qs : Forall has_effect qs -> forall st, m_env (fold_left (fun st x => mean x st) qs st) = all_of qs (m_env st).
Proof. induction 1 as [|x qs H _ IH]; intros st; [reflexivity|]. cbn [fold_left all_of]. rewrite IH, H. reflexivity. Qed.
Lemma block_effect span qs e : Forall has_effect qs -> snd (block_mean_with mean span qs e) = all_of qs e.
Proof.
  intros F. unfold block_mean_with. cbn [snd]. pose proof (fold_effect qs F (mk_mstate (start_of span) [] e)) as H. cbn [m_env] in H.
  destruct span; [rewrite enter_same|]; exact H.
Qed.
Lemma loop_effect (body join : E -> list (item LI) * E) (fb fj : E -> E) bs : (forall e, snd (body e) = fb e) -> (forall e, snd (join e) = fj e) ->
  forall e, snd (loop_mean body join bs e) = rounds bs fb fj e.
Proof.
  intros B J. induction bs as [|b bs IH]; intros e; [reflexivity|]. cbn [loop_mean]. specialize (B (b e)). destruct (body (b e)) as [its e1]. cbn [snd] in B. subst e1.
  destruct bs as [|b' bs]; [reflexivity|]. specialize (J (fb (b e))). destruct (join (fb (b e))) as [sep e2]. cbn [snd] in J. subst e2.
  specialize (IH (fj (fb (b e)))). destruct (loop_mean body join (b' :: bs) (fj (fb (b e)))) as [rest e3]. exact IH.
Qed.
Lemma all_effects : (forall x, has_effect x) /\ (forall x, has_effect_in x).
Proof.
  apply quoted_string_ind; try (intros; intros st; cbn [mean put m_env]; apply enter_same); try (intros; intros a ks e; reflexivity).
  - intros c d qs F st. cbn [mean put m_env]. rewrite enter_same, (fold_effect qs F). cbn [put m_env]. rewrite enter_same. reflexivity.
  - intros c paren ps F st. cbn [mean]. 
    assert (G : forall a ks e, snd (fold_left (fun st x => string_mean x st) ps (a, ks, e)) = alls_of ps e).
    { induction F as [|x ps H _ IH]; intros a ks e; [reflexivity|]. cbn [fold_left alls_of]. rewrite <- (H a ks e). destruct (string_mean x (a, ks, e)) as [[a' ks'] e']. apply IH. }
    specialize (G (after_open paren) [] (m_env (enter_chunks c st))). destruct (fold_left _ ps _) as [[a ks] e]. cbn [snd] in G. cbn [put_items m_env snd]. rewrite G, enter_same. reflexivity.
  - intros c v st. cbn [mean]. rewrite enter_same. cbn [effect]. destruct (v (m_env st)). reflexivity.
  - intros c v st. cbn [mean]. rewrite enter_same. cbn [effect]. destruct (v (m_env st)). reflexivity.
  - intros c f st. cbn [mean m_env]. rewrite enter_same. reflexivity.
  - intros c it join body J B st. cbn [mean]. rewrite enter_same. cbn [effect]. destruct (it (m_env st)) as [bs e]. cbn [put_items m_env fst snd].
    apply loop_effect; [intros e'; apply block_effect, B|]. intros e'. destruct join as [[paren js]|]; [apply block_effect, J|reflexivity].
  - intros c cond a b A B st. cbn [mean]. rewrite enter_same. cbn [effect]. destruct (cond (m_env st)) as [yes e]. cbn [put_items m_env fst snd].
    destruct yes; [apply block_effect, A|]. destruct b; [apply block_effect, B|reflexivity].
  - intros c sel arms A st. cbn [mean]. rewrite enter_same. cbn [effect]. destruct (sel (m_env st)) as [i e]. cbn [put_items m_env fst snd].
    revert i. induction A as [|[paren qs] arms QA _ IH]; intros i; [destruct i; reflexivity|]. destruct i; [apply block_effect, QA|apply IH].
  - intros c f st. cbn [mean put_items m_env snd]. rewrite enter_same. reflexivity.
  - intros c v a ks e. cbn [string_mean effect_in]. destruct (v e). reflexivity.
  - intros c qs F a ks e. rewrite mean_eval. pose proof (block_effect (Some (eval_span c qs)) qs e F) as H. destruct (block_mean_with _ _ _ _). exact H.
Qed.
Lemma all_effects_fold qs : forall e, all_of qs e = effects qs e.
Proof. induction qs as [|x qs IH]; intros e; [reflexivity|]. exact (IH (effect x e)). Qed.
End Order.

(** The Rust code in a quote runs in the order of the source: each expression once,
    where the control flow around it gets to it, whatever is in the stream. *)
Theorem C82_effects : forall LI E (qs : list (quoted_item LI E)) e t e' t',
  quote_in qs e t = Some (e', t') -> e' = effects qs e.
Proof.
  intros LI E qs e t e' t' Q. unfold quote_in in Q. destruct (quote_code qs) as [[r code]|] eqn:C; [|discriminate]. cbn [option_map snd] in Q.
  rewrite (quote_supplies _ _ _ C e t) in Q. assert (H : snd (quote_mean qs e) = e') by congruence. rewrite <- H.
  unfold quote_mean, block_mean. rewrite block_effect; [apply all_effects_fold|]. apply Forall_forall. intros x _. apply (proj1 all_effects).
Qed.
Print Assumptions C82_effects.

(** So the stream and the positions of the tokens do not matter. *)
Theorem C82_stream : forall LI E (qs qs' : list (quoted_item LI E)) e t t1 r r1,
  map effect qs = map effect qs' -> quote_in qs e t = Some r -> quote_in qs' e t1 = Some r1 -> fst r = fst r1.
Proof.
  intros LI E qs qs' e t t1 [e' t'] [e1 t1'] H Q Q1. cbn [fst]. rewrite (C82_effects _ _ _ _ _ _ _ Q), (C82_effects _ _ _ _ _ _ _ Q1).
  assert (G : forall l (e : E), effects l e = fold_left (fun e f => f e) (map (@effect LI E) l) e).
  { induction l as [|x l IH]; intros e0; [reflexivity|]. exact (IH (effect x e0)). }
  rewrite !G, H. reflexivity.
Qed.
Print Assumptions C82_stream.

(** With expressions that only write to a log, the log has them in the order of the
    source, each once. *)
Theorem C82_log : forall LI A (qs : list (quoted_item LI (list A))) labels log t r,
  logs qs labels -> quote_in qs log t = Some r -> fst r = log ++ labels.
Proof.
  intros LI A qs labels log t [e' t'] L Q. rewrite (C82_effects _ _ _ _ _ _ _ Q). cbn [fst]. clear Q. rewrite <- all_effects_fold. revert log.
  refine (logs_mind (fun qs l => forall log, all_of qs log = log ++ l) (fun ps l => forall log, alls_of ps log = log ++ l) _ _ _ _ _ _ _ _ _ _ _ _ qs labels L); clear.
  - intros log. cbn. rewrite app_nil_r. reflexivity.
  - intros c s qs l _ IH log. exact (IH log).
  - intros c v a qs l V _ IH log. cbn [all_of effect]. rewrite V, IH, <- app_assoc. reflexivity.
  - intros c v a qs l V _ IH log. cbn [all_of effect]. rewrite V, IH, <- app_assoc. reflexivity.
  - intros c f a qs l V _ IH log. cbn [all_of effect]. rewrite V, IH, <- app_assoc. reflexivity.
  - intros c d inner qs l l' _ IHi _ IH log. change (all_of (QGroup c d inner :: qs) log) with (all_of qs (all_of inner log)). rewrite IHi, IH, <- app_assoc. reflexivity.
  - intros c p ps qs l l' _ IHi _ IH log. change (all_of (QString c p ps :: qs) log) with (all_of qs (alls_of ps log)). rewrite IHi, IH, <- app_assoc. reflexivity.
  - intros log. cbn. rewrite app_nil_r. reflexivity.
  - intros c s ps l _ IH log. exact (IH log).
  - intros c s ps l _ IH log. exact (IH log).
  - intros c v a ps l V _ IH log. cbn [alls_of effect_in]. rewrite V, IH, <- app_assoc. reflexivity.
  - intros c qs ps l l' _ IHi _ IH log. change (alls_of (PEval c qs :: ps) log) with (alls_of ps (all_of qs log)). rewrite IHi, IH, <- app_assoc. reflexivity.
Qed.
Print Assumptions C82_log.

(** ** Examples *)
Definition at_col (a b : nat) : cursor := mk_cursor (mk_pos 1 a) (mk_pos 1 b).
Definition says_log (n : nat) (log : list nat) : value unit * list nat := (VItemStr (Static $"x"), log ++ [n]).
(** [a $(1) ($(2) $[str](b $(c $(3)))) $(4)] *)
Definition log_quote : list (quoted_item unit (list nat)) :=
  [QText (at_col 0 1) $"a"; QEval (at_col 2 6) (says_log 1);
   QGroup (at_col 7 33) Parenthesis [QEval (at_col 8 12) (says_log 2);
     QString (at_col 13 32) (at_col 19 32) [PText (at_col 20 21) $"b"; PEval (at_col 22 31) [QText (at_col 24 25) $"c"; QEval (at_col 26 30) (says_log 3)]]];
   QEval (at_col 34 38) (says_log 4)].
Example C82_log_example : logs log_quote [1; 2; 3; 4] /\ option_map fst (quote log_quote [0]) = Some [0; 1; 2; 3; 4].
Proof.
  split; [|vm_compute; reflexivity]. unfold log_quote. apply logs_text, logs_value; [reflexivity|].
  apply (logs_group _ _ _ _ [2; 3] [4]); [|apply logs_value; [reflexivity|constructor]].
  apply logs_value; [reflexivity|]. apply (logs_string _ _ _ _ [3] []); [|constructor]. apply logs_word.
  apply (logs_code _ _ _ [3] []); [|constructor]. apply logs_text, logs_value; [reflexivity|constructor].
Qed.
(** [$(for x in (1) join ($(2)) => $(3)) $(if (4) { $(5) } else { $(6) })], with three
    elements, which the bindings log as ten, and a condition that is false. *)
Definition flow_quote : list (quoted_item unit (list nat)) :=
  [QLoop (at_col 0 36) (fun log => (repeat (fun log => log ++ [10]) 3, log ++ [1]))
     (Some (at_col 19 25, [QEval (at_col 20 24) (says_log 2)])) [QEval (at_col 29 33) (says_log 3)];
   QIf (at_col 37 71) (fun log => (false, log ++ [4])) [QEval (at_col 49 53) (says_log 5)] (Some [QEval (at_col 63 67) (says_log 6)])].
Example C82_flow_example : option_map fst (quote flow_quote []) = Some [1; 10; 3; 2; 10; 3; 2; 10; 3; 4; 6] /\
  effects flow_quote [] = [1; 10; 3; 2; 10; 3; 2; 10; 3; 4; 6].
Proof. split; vm_compute; reflexivity. Qed.
