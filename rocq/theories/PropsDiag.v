(** * Errors about indentation (C78).

    Vocabulary: [SpecDiag.v], [SpecMacro.v] (tokens of a quote, [line_starts], [may_start],
    [aligned]), [SpecQuote.v] ([accepted]). *)
From Verif Require Import Str Tokens SpecTokens SpecFmt Macro SpecMacro SpecQuote MacroFacts MacroSem MacroTokens MacroLines MacroControl PropsMacro Diag SpecDiag DiagFacts.

(** An error about indentation is about a token that starts a line in a column
    where no line may start; all tokens in front of it are accepted.  With the line
    moved as the error says, it starts where an enclosing line does, and the quote
    is accepted up to this token. *)
Theorem C78_advice : forall LI E (qs : list (quoted_item LI E)) msg c,
  quote_error qs = Some (msg, c) ->
  quote_code qs = None /\
  exists pre a l post adv, all_tokens qs = pre ++ (c, l) :: post /\ last (map fst pre) c = a /\ pre <> [] /\
  p_line (c_end a) < p_line (c_start c) /\ ~ may_start (line_starts (map fst pre)) (p_col (c_start c)) /\
  says_advice adv msg /\
  aligned (line_starts (map fst pre)) (follow adv (p_col (c_start c))) /\
  forall s c', p_line (c_start c') = p_line (c_start c) -> p_col (c_start c') = follow adv (p_col (c_start c)) ->
    exists before : list (quoted_item LI E), all_tokens before = pre /\ accepted (before ++ [QText c' s]).
Proof.
  intros LI E qs msg c H. pose proof (all_tokens_ok qs) as TO.
  assert (AT : at_place (@encoder_new LI E None None) None) by (cbn; auto).
  destruct (tokens_error_some (all_tokens qs) [] _ [] None msg c TO eq_refl AT H) as (pre & l & post & TK & FA & G & P).
  cbn [app] in G, P. destruct pre as [|[a la] pre] using rev_ind; [discriminate P|clear IHpre]. rewrite map_app in *. cbn [map fst] in *.
  destruct (place_error_after _ _ _ _ P) as (L & M & x & AL & NX & ->).
  assert (TP : Forall tok_ok (pre ++ [(a, la)])) by (rewrite TK in TO; apply Forall_app in TO; tauto).
  split.
  - apply C53_rejected. right. exists (map fst pre), a, c. split; [exists (map fst post); rewrite TK, !map_app; cbn [map fst]; rewrite <- app_assoc; reflexivity|].
    right. split; [exact L|]. split; [exact M|]. pose proof (enter_after (map fst pre) a c) as EA.
    destruct (enter c (after (map fst pre ++ [a]))) as [[p w]|] eqn:EN; [|destruct EA as [EA|EA]; [lia|tauto]].
    exfalso. destruct EA as [_ SP]. unfold separation in SP. destruct (Nat.eqb_spec (p_line (c_end a)) (p_line (c_start c))); [lia|].
    destruct SP as (_ & _ & [[SP _]|(_ & LV & _)]); [tauto|].
    pose proof (level_enclosing _ (line_starts_some (map fst pre) a)) as LE. rewrite LV in LE. apply aligned_enclosing in AL.
    destruct (enclosing_top _ (line_starts_some (map fst pre) a)) as [st T]. rewrite T in *. destruct st; [|cbn in LE; lia]. destruct AL as [AL|[]].
    rewrite after_snoc, T in P. cbn [place_error pop_error] in P. destruct ((_ <? _) && _); discriminate.
  - exists (pre ++ [(a, la)]), a, l, post, (if x <? p_col (c_start c) then Less (p_col (c_start c) - x) else More (x - p_col (c_start c))).
    split; [exact TK|]. rewrite map_app. cbn [map fst]. split; [apply last_last|]. split; [destruct pre; discriminate|]. split; [exact L|]. split; [exact M|].
    assert (FO : follow (if x <? p_col (c_start c) then Less (p_col (c_start c) - x) else More (x - p_col (c_start c))) (p_col (c_start c)) = x).
    { destruct (Nat.ltb_spec x (p_col (c_start c))); cbn [follow]; lia. }
    split; [|split; [rewrite FO; exact AL|]].
    + unfold says_advice, indentation_error. destruct (Nat.ltb_spec x (p_col (c_start c))).
      * exists (p_col (c_start c) - x), $"less". split; [destruct (_ =? 1); reflexivity|]. split; [lia|auto].
      * exists (x - p_col (c_start c)), $"more". split; [destruct (_ =? 1); reflexivity|]. split; [lia|auto].
    + intros s c' R C. rewrite FO in C. exists (map item_of (pre ++ [(a, la)])). split; [apply items_tokens, TP|].
      unfold accepted. intros Q. apply C53_rejected in Q. 
      assert (TK' : all_tokens (map item_of (pre ++ [(a, la)]) ++ [QText c' s]) = (pre ++ [(a, la)]) ++ [(c', LText s)]).
      { unfold all_tokens. rewrite flat_map_app. change (flat_map tokens_of (map item_of ?l)) with (all_tokens (map item_of l)). rewrite items_tokens by exact TP. reflexivity. }
      unfold neighbours in Q. rewrite TK' in Q. destruct Q as [(y & I & N)|(pr & b & d & (po & NB) & X)].
      * rewrite map_app in I. apply in_app_or in I as [I|[I|[]]]; [|discriminate]. apply in_map_iff in I as ([cy ly] & LY & I). cbn in LY. subst ly.
        rewrite Forall_forall in FA. assert (AC := FA (cy, LOther y) (in_or_app _ _ _ (or_introl I))). apply fine_acceptable in AC. cbn in AC. rewrite N in AC. discriminate.
      * rewrite !map_app in NB. cbn [map fst] in NB.
        assert (GN : gaps ((map fst pre ++ [a]) ++ [c']) None = None) by (apply gaps_none; exists pr, b, d, po; auto).
        rewrite gaps_app in GN. destruct (gaps (map fst pre ++ [a]) None) as [[ps w]|] eqn:GP; [|congruence]. pose proof (gaps_after _ _ _ GP) as ->.
        cbn [gaps] in GN. destruct (enter c' (after (map fst pre ++ [a]))) as [[p w]|] eqn:EN; [discriminate|].
        revert EN. apply aligned_enter; [lia|]. right. rewrite C. exact AL.
Qed.
Print Assumptions C78_advice.

(** A quote that is rejected is rejected with such an error, unless its tokens are
    out of order or an element of it is rejected by itself. *)
Theorem C78_reported : forall LI E (qs : list (quoted_item LI E)),
  quote_code qs = None -> in_order (map fst (all_tokens qs)) ->
  (forall x, In (LOther x) (map snd (all_tokens qs)) -> accepted [x]) ->
  quote_error qs <> None.
Proof.
  intros LI E qs Q IO AC H. unfold quote_error in H.
  assert (FA : Forall (fun t : cursor * leaf LI E => fine (snd t) = true) (all_tokens qs)).
  { apply Forall_forall. intros [c [u|x]] I; cbn; [reflexivity|]. specialize (AC x (in_map snd _ _ I)). unfold accepted in AC. destruct (quote_code [x]); [reflexivity|congruence]. }
  assert (AT : at_place (@encoder_new LI E None None) None) by (cbn; auto).
  apply (tokens_error_none _ [] _ [] None (all_tokens_ok qs) FA IO eq_refl AT) in H.
  rewrite <- fold_tokens in H. unfold quote_code, block_with in Q. cbn [option_map] in Q.
  pose proof (fold_ok qs (proj2 (Forall_forall _ _) (fun x _ => proj1 elements x)) (@encoder_new LI E None None) None ltac:(cbn; auto)) as FO.
  destruct (fold_opt encode qs (encoder_new None None)) as [s|]; [|congruence]. destruct FO as (w & ks & _ & SE & _). cbn [bind] in Q. unfold finalize in Q. rewrite SE in Q. discriminate.
Qed.
Print Assumptions C78_reported.
(** <<
    a
        b
            c
      d
    >> *)
Definition demo_bad (col : nat) : list (quoted_item nat nat) := [tok 1 0 $"a"; tok 2 4 $"b"; tok 3 8 $"c"; tok 4 col $"d"].
Example C78_example : 
  quote_error (demo_bad 6) = Some ($"expected 2 less spaces of indentation", word 4 6 $"d") /\
  quote_error (demo_bad 5) = Some ($"expected 1 less space of indentation", word 4 5 $"d") /\
  quote_error (demo_bad 4) = None /\ accepted (demo_bad 4) /\
  quote_error [tok 1 4 $"a"; tok 2 8 $"b"; tok 3 2 $"c" : quoted_item nat nat] = Some ($"expected 2 more spaces of indentation", word 3 2 $"c").
Proof. repeat split; try (vm_compute; reflexivity). discriminate. Qed.
Example C78_reported_example : quote_code (demo_bad 6) = None /\ in_order (map fst (all_tokens (demo_bad 6))) /\
  (forall x, In (LOther x) (map snd (all_tokens (demo_bad 6))) -> accepted [x]).
Proof. split; [reflexivity|]. split; [cbn; lia|]. intros x H. cbn in H. decompose [or] H; try discriminate; tauto. Qed.
