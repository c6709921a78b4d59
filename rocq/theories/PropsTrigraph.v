(** * C literals and trigraphs (C30). *)
From Verif Require Import Str SpecStr StrFacts Quote SpecLex LexFacts QuoteFacts Tokens Values Fmt SpecFmt
  LangBase LangC OutputFacts StringFacts PropsQuote ExactFacts PropsExact SpecTrigraph PropsNested.
From Coq Require Import ZifyBool ZifyNat ZifyN.

Lemma tri_pass a r : a <> 63%N -> trigraphs (a :: r) = a :: trigraphs r.
Proof. intros A. destruct r as [|b [|c r]]; try reflexivity. cbn [trigraphs]. replace (N.eqb a 63) with false by lia. reflexivity. Qed.
Lemma tri_pass_all x r : Forall (fun a => a <> 63%N) x -> trigraphs (x ++ r) = x ++ trigraphs r.
Proof. induction 1 as [|a x A F IH]; [reflexivity|]. cbn [app]. rewrite tri_pass, IH by exact A. reflexivity. Qed.
Lemma tri_stay b r : match r with c :: _ => trigraph c = None | [] => True end -> trigraphs (63%N :: b :: r) = 63%N :: trigraphs (b :: r).
Proof.
  intros H. destruct r as [|c r]; [reflexivity|]. change (trigraphs (63%N :: b :: c :: r)) with
    (match (if N.eqb 63 63 && N.eqb b 63 then trigraph c else None) with Some d => d :: trigraphs r | None => 63%N :: trigraphs (b :: c :: r) end).
  destruct (N.eqb 63 63 && N.eqb b 63)%bool; [rewrite H|]; reflexivity.
Qed.
Lemma tri_other b r : b <> 63%N -> trigraphs (63%N :: b :: r) = 63%N :: trigraphs (b :: r).
Proof.
  intros H. destruct r as [|c r]; [reflexivity|]. cbn [trigraphs]. replace (N.eqb b 63) with false by lia. reflexivity.
Qed.
(** Question marks are written as they are; escapes have none. *)
Lemma no_question c : scalar c -> c_family_char c = [c] /\ (32 <= c < 127)%N /\ c <> 39%N \/ exists t, c_family_char c = 92%N :: t /\ Forall (fun a => a <> 63%N) t.
Proof.
  assert (HP : forall w n, Forall (fun a => a <> 63%N) (hex_pad w n)).
  { intros w n. destruct (hex_pad_as_digits w n) as (ds & -> & F & _). apply Forall_map. eapply Forall_impl; [|exact F]. intros d D. pose proof (hex_char_range d D). lia. }
  intros V. apply (c_family_cases c (fun s => s = [c] /\ (32 <= c < 127)%N /\ c <> 39%N \/ exists t, s = 92%N :: t /\ Forall (fun a => a <> 63%N) t) V).
  - intros H. right. cbn [In] in H. repeat match goal with H : _ \/ _ |- _ => destruct H as [<-|H] end; [..|contradiction]; (eexists; split; [reflexivity|]; repeat constructor; discriminate).
  - intros R _ N _. left. auto.
  - intros _. right. eexists. split; [reflexivity|]. constructor; [discriminate|apply HP].
  - intros _. right. eexists. split; [reflexivity|]. constructor; [discriminate|apply HP].
  - intros _. right. eexists. split; [reflexivity|]. constructor; [discriminate|apply HP].
Qed.
Lemma no_trigraph_tail c s : no_trigraph (c :: s) -> no_trigraph s.
Proof. intros H p d q E. apply (H (c :: p) d q). rewrite E. reflexivity. Qed.
Lemma literal_stays s : valid s -> no_trigraph s -> forall rest, trigraphs (flat_map c_family_char s ++ 34%N :: rest) = flat_map c_family_char s ++ 34%N :: trigraphs rest.
Proof.
  intros V. induction V as [|c s C V IH]; intros H rest; [apply tri_pass; discriminate|].
  specialize (IH (no_trigraph_tail _ _ H) rest). cbn [flat_map]. rewrite <- !app_assoc.
  destruct (no_question c C) as [[-> [R R39]]|(t & -> & F)].
  - cbn [app]. destruct (N.eq_dec c 63) as [->|N]; [|rewrite tri_pass, IH by exact N; reflexivity].
    rewrite <- IH. destruct V as [|d s D V]; [apply tri_other; discriminate|]. cbn [flat_map]. rewrite <- app_assoc.
    destruct (no_question d D) as [[-> [RD RD39]]|(t & -> & F)]; [|apply tri_other; discriminate]. cbn [app].
    destruct (N.eq_dec d 63) as [->|ND]; [|apply tri_other; exact ND]. apply tri_stay.
    destruct V as [|e s E V]; [reflexivity|]. cbn [flat_map]. rewrite <- app_assoc. destruct (no_question e E) as [[-> [RE RE39]]|(t & -> & F)]; [|reflexivity]. cbn [app]. exact (H [] e s eq_refl RE39).
  - cbn [app]. rewrite tri_pass, tri_pass_all, IH by (exact F || discriminate). reflexivity.
Qed.

(** The strings of C30 without trigraphs are read back where trigraphs are replaced. *)
Theorem C30_trigraphs_partial : forall s,
  valid s -> ~ In 17%N s -> ~ In 18%N s -> Forall (fun c => c < 128 \/ 160 <= c)%N s -> no_control_hex s -> no_trigraph s ->
  exists src bytes, to_string c_lang (quoted_string s) = Some src /\ trigraph_denotes src bytes /\ utf8_decodes bytes s.
Proof.
  intros s V A B R H T. destruct (C30_c_round_trip_partial s V A B R H) as (src & bytes & E & D & U). exists src, bytes. split; [exact E|]. split; [|exact U].
  apply (literal_is _ c_family_char) in E; try (intros; reflexivity). subst src. intros rest.
  etransitivity; [|exact (D (trigraphs rest))]. f_equal. cbn [app]. rewrite tri_pass by discriminate. f_equal. rewrite <- !app_assoc. apply literal_stays; assumption.
Qed.
Print Assumptions C30_trigraphs_partial.
Example C30_trigraphs_example : no_trigraph ($"what?? ???'" ++ [34%N]).
Proof.
  intros p c q E N. match type of E with ?l = _ => let x := eval vm_compute in l in change l with x in E end.
  repeat (destruct p as [|? p]; [cbn [app] in E; try discriminate E; injection E as <- <-; reflexivity || congruence|cbn [app] in E; (discriminate E || injection E as <- E)]).
Qed.

(** Finding: a trigraph in a string is replaced, so that the literal does not denote
    the string: for every string whose first trigraph is not the one for a backslash,
    and comes after characters that are written as they are. *)
Lemma trigraph_not c d : trigraph c = Some d -> c <> 39%N -> c <> chr "/" -> (35 <= d < 127)%N /\ d <> 63%N /\ d <> 92%N /\ c_family_char c = [c].
Proof.
  intros T N S. unfold trigraph in T. cbn [find fst] in T.
  repeat match type of T with context [N.eqb ?k c] => destruct (N.eqb_spec k c) as [<-|] end; cbn [option_map snd] in T; try discriminate T; try (exfalso; apply N; reflexivity); try (exfalso; apply S; reflexivity).
  all: apply (f_equal (fun o => match o with Some x => x | None => 0%N end)) in T; cbn beta iota in T; subst d; (split; [split; reflexivity || discriminate|]; split; [discriminate|]; split; [discriminate|reflexivity]).
Qed.
Lemma first_trigraph p c d X : Forall plain_ascii p -> no_trigraph (p ++ [63; 63]%N) -> trigraph c = Some d ->
  trigraphs (p ++ 63%N :: 63%N :: c :: X) = p ++ d :: trigraphs X.
Proof.
  intros P NT TC. induction p as [|a p IH].
  - cbn [app]. cbn [trigraphs]. change (N.eqb 63 63 && N.eqb 63 63)%bool with true. cbn iota. rewrite TC. reflexivity.
  - specialize (IH (Forall_inv_tail P) (no_trigraph_tail _ _ NT)). cbn [app]. rewrite <- IH. clear IH. destruct (N.eq_dec a 63) as [->|A]; [|apply tri_pass; exact A].
    destruct p as [|b p]; [apply tri_stay; reflexivity|]. cbn [app]. destruct (N.eq_dec b 63) as [->|B]; [|apply tri_other; exact B]. apply tri_stay.
    destruct p as [|e p]; [reflexivity|]. cbn [app]. refine (NT [] e _ eq_refl _). inversion P as [|? ? _ P1]. inversion P1 as [|? ? _ P2]. inversion P2 as [|? ? [_ E39] _]. intros ->. apply E39. right; left; reflexivity.
Qed.
Lemma c_raw c : (32 <= c < 127)%N -> g_raw c_grammar c = Some [c].
Proof. intros R. cbn [g_raw c_grammar]. unfold is_line_end. replace (N.eqb c 10 || N.eqb c 13)%bool with false by lia. rewrite raw_utf8 by lia. reflexivity. Qed.
Theorem C30_trigraph_refuted : forall p c q, Forall plain_ascii p -> no_trigraph (p ++ [63; 63]%N) -> c <> 39%N -> c <> chr "/" -> trigraph c <> None ->
  exists src, to_string c_lang (quoted_string (p ++ [63; 63; c]%N ++ q)) = Some src /\
  ~ exists bytes, trigraph_denotes src bytes /\ utf8_decodes bytes (p ++ [63; 63; c]%N ++ q).
Proof.
  intros p c q P NT N39 NS T. eexists. split; [apply (literal_source c_lang c_family_char); reflexivity|]. intros (bytes & D & U). specialize (D []). rewrite app_nil_r in D.
  destruct (trigraph c) as [d|] eqn:TC; [|contradiction]. destruct (trigraph_not c d TC N39 NS) as (R & D63 & D92 & CC).
  set (X := flat_map c_family_char q ++ [34%N]) in *.
  assert (S : trigraphs (34%N :: flat_map c_family_char (p ++ [63; 63; c]%N ++ q) ++ [34%N]) = 34%N :: p ++ d :: trigraphs X).
  { rewrite tri_pass by discriminate. f_equal. rewrite !flat_map_app. cbn [flat_map]. rewrite CC. change (c_family_char 63) with [63%N]. rewrite !app_nil_r, <- !app_assoc. fold X. cbn [app].
    rewrite (same_text c_family_char p) by (eapply Forall_impl; [|exact P]; intros a; apply c_family_written).
    apply first_trigraph; assumption. }
  unfold read_literal in D. fold trigraphs in D. rewrite S in D. rewrite N.eqb_refl in D. destruct (lex c_grammar MText (p ++ d :: trigraphs X)) as [[v [|e l]]|] eqn:L; try discriminate D.
  destruct (N.eqb e 34); [|discriminate D]. injection D as D _. subst v. clear -L U P R D63 D92.
  revert bytes L U. induction p as [|a p IH]; intros v L U; cbn [app] in L, U.
  - rewrite (lex_raw c_grammar d [d]) in L; [|apply N.eqb_neq; lia|exact D92|reflexivity|apply c_raw; lia].
    destruct (lex c_grammar MText (trigraphs X)) as [[w ?]|]; [|discriminate L]. injection L as <- _. destruct (utf8_head 63 _ _ _ eq_refl U). congruence.
  - inversion P as [|? ? [PA NA] P']; subst. unfold printable in PA. cbn [In] in NA. rewrite (lex_raw c_grammar a [a]) in L; [|apply N.eqb_neq; lia|lia|reflexivity|apply c_raw; lia].
    destruct (lex c_grammar MText (p ++ d :: trigraphs X)) as [[w ?]|]; [|discriminate L]. injection L as <- ->. destruct (utf8_head a _ _ _ ltac:(lia) U) as [_ U']. exact (IH P' _ eq_refl U').
Qed.
Print Assumptions C30_trigraph_refuted.
Example C30_trigraph_example : Forall plain_ascii ($"is it") /\ no_trigraph ($"is it" ++ [63; 63]%N) /\ trigraph (chr "!") = Some (chr "|") /\
  to_string c_lang (quoted_string ($"is it" ++ [63; 63; chr "!"]%N)) = Some ([34%N] ++ $"is it??!" ++ [34%N]) /\
  trigraph_denotes ([34%N] ++ $"is it??!" ++ [34%N]) ($"is it|").
Proof.
  split; [|split; [|split; [|split]]]; try (vm_compute; reflexivity).
  - apply Forall_forall. intros c C. cbn in C. unfold plain_ascii, printable. cbn [In]. lia.
  - intros p c q E N. match type of E with ?l = _ => let x := eval vm_compute in l in change l with x in E end.
    repeat (destruct p as [|? p]; [cbn [app] in E; try discriminate E; injection E as <- <-; reflexivity || congruence|cbn [app] in E; (discriminate E || injection E as <- E)]).
  - intros rest. destruct rest as [|a [|b rest]]; reflexivity.
Qed.
(** The trigraph for a backslash, at the end, escapes the closing quote: the text is
    no literal at all. *)
Theorem C30_backslash_trigraph_refuted : forall p, Forall plain_ascii p -> no_trigraph (p ++ [63; 63]%N) ->
  exists src, to_string c_lang (quoted_string (p ++ [63; 63; chr "/"]%N)) = Some src /\ ~ exists v, trigraph_denotes src v.
Proof.
  intros p P NT. eexists. split; [apply (literal_source c_lang c_family_char); reflexivity|]. intros [v D]. specialize (D []). rewrite app_nil_r in D. unfold read_literal in D.
  rewrite tri_pass in D by discriminate. rewrite N.eqb_refl, flat_map_app, (same_text c_family_char p) in D by (eapply Forall_impl; [|exact P]; intros a; apply c_family_written).
  rewrite <- app_assoc in D. change (flat_map c_family_char [63; 63; chr "/"]%N ++ [34%N]) with ([63; 63; chr "/"; 34]%N) in D.
  rewrite (first_trigraph p (chr "/") 92 [34%N] P NT eq_refl) in D.
  assert (L : lex c_grammar MText (p ++ 92%N :: trigraphs [34%N]) = None); [|rewrite L in D; discriminate D].
  clear -P. induction P as [|a p [PA NA] P IH]; [reflexivity|]. unfold printable in PA. cbn [In] in NA. cbn [app]. rewrite (lex_raw c_grammar a [a]); [|apply N.eqb_neq; lia|lia|reflexivity|apply c_raw; lia]. rewrite IH. reflexivity.
Qed.
Print Assumptions C30_backslash_trigraph_refuted.
Example C30_backslash_trigraph_example : to_string c_lang (quoted_string ($"is it??/")) = Some ([34%N] ++ $"is it??/" ++ [34%N]).
Proof. vm_compute. reflexivity. Qed.
