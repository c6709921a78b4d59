(** * Source that is not only blanks between the tokens of a string, exactly (C58). *)
From Verif Require Import Str Tokens SpecTokens TokensRun Values Fmt SpecFmt
  Macro SpecMacro SpecQuote MacroFacts MacroSem MacroTokens MacroLines MacroControl MacroStrings PropsMacro PropsControl.

Section Spec.
Context {LI E : Type}.
(** The tokens of a string are where they are in the line of source; between them may
    be anything. *)
Fixpoint in_place (src : str) (at_ : nat) (ps : list (string_item LI E)) (stop : nat) : Prop :=
  match ps with
  | [] => at_ <= stop /\ stop <= length src
  | x :: ps' =>
      let a := p_col (c_start (string_cursor x)) in
      let b := p_col (c_end (string_cursor x)) in
      at_ <= a /\ a <= b /\ match x with PText _ s => slice src a b = s | _ => True end /\ in_place src b ps' stop
  end.
(** Columns [at_] to [stop], with spaces for what is between the tokens. *)
Fixpoint blanked (src : str) (at_ : nat) (ps : list (string_item LI E)) (stop : nat) : str :=
  match ps with
  | [] => repeat 32%N (stop - at_)
  | x :: ps' =>
      let a := p_col (c_start (string_cursor x)) in
      let b := p_col (c_end (string_cursor x)) in
      repeat 32%N (a - at_) ++ slice src a b ++ blanked src b ps' stop
  end.
End Spec.

Section Facts.
Context {LI E : Type}.
Notation sitems := (list (string_item LI E)).
Lemma place_le src (ps : sitems) stop : forall at_, in_place src at_ ps stop -> at_ <= stop /\ stop <= length src.
Proof. induction ps as [|x ps IH]; intros at_ H; [exact H|]. cbn [in_place] in H. destruct H as (H1 & H2 & _ & H3). apply IH in H3. lia. Qed.
Lemma slice_length src a b : a <= b -> b <= length src -> length (slice src a b) = b - a.
Proof. intros H1 H2. unfold slice. rewrite firstn_length, skipn_length. lia. Qed.
Lemma blanked_length src (ps : sitems) stop : forall at_, in_place src at_ ps stop -> length (blanked src at_ ps stop) = stop - at_.
Proof.
  induction ps as [|x ps IH]; intros at_ H; [apply repeat_length|]. cbn [blanked in_place] in *. destruct H as (H1 & H2 & _ & H3).
  rewrite !app_length, repeat_length, (IH _ H3). pose proof (place_le _ _ _ _ H3). rewrite slice_length by lia. lia.
Qed.
Lemma app_split {A} (a b c d : list A) : length a = length c -> a ++ b = c ++ d -> a = c /\ b = d.
Proof. revert c. induction a as [|x a IH]; intros [|y c] L H; try discriminate; [auto|]. injection H as -> H. injection L as L. destruct (IH c L H) as [-> ->]. auto. Qed.
(** Another line with spaces there. *)
Lemma spelled_blanked src src2 (ps : sitems) stop : forall at_, in_place src at_ ps stop -> length src2 = length src ->
  slice src2 at_ stop = blanked src at_ ps stop -> spelled src2 at_ ps stop.
Proof.
  induction ps as [|x ps IH]; intros at_ H L S; [split; [exact (proj1 H)|exact S]|].
  pose proof (place_le _ _ _ _ H) as PL. cbn [in_place blanked spelled] in *. destruct H as (H1 & H2 & H3 & H4). pose proof (place_le _ _ _ _ H4) as PL2.
  set (a := p_col (c_start (string_cursor x))) in *. set (b := p_col (c_end (string_cursor x))) in *.
  rewrite <- (slice_app src2 at_ a stop) in S by lia. rewrite <- (slice_app src2 a b stop) in S by lia.
  apply app_split in S as [S1 S]; [|rewrite repeat_length; apply slice_length; lia]. apply app_split in S as [S2 S3]; [|rewrite !slice_length by lia; reflexivity].
  split; [split; [exact H1|exact S1]|]. split; [exact H2|]. split; [|apply (IH b H4 L S3)].
  destruct x; auto. rewrite S2. exact H3.
Qed.
(** Of the lines with these tokens in place, those with spaces between them are spelled. *)
Lemma spelled_iff src (ps : sitems) stop : forall at_, in_place src at_ ps stop -> (spelled src at_ ps stop <-> slice src at_ stop = blanked src at_ ps stop).
Proof.
  intros at_ H. split; [|intros S; apply (spelled_blanked src src ps stop at_ H eq_refl S)].
  revert at_ H. induction ps as [|x ps IH]; intros at_ H S; [exact (proj2 S)|]. cbn [in_place blanked spelled] in *. destruct H as (H1 & H2 & _ & H4), S as ((_ & S1) & _ & _ & S3).
  pose proof (place_le _ _ _ _ H4) as PL2. rewrite <- (IH _ H4 S3), <- S1. rewrite !slice_app by lia. reflexivity.
Qed.
Lemma constant_text src (ps : sitems) stop : Forall (fun p => match p with PText _ _ => True | _ => False end) ps ->
  forall cur ks rq before, in_place src (p_col cur) ps (p_col stop) -> sbody cur ps stop = Some (ks, rq) -> coalesce before ks = text_code (before ++ blanked src (p_col cur) ps (p_col stop)).
Proof.
  induction 1 as [|x ps H _ IH]; intros cur ks rq before P SB.
  - cbn [sbody] in SB. destruct (_ =? _); [|discriminate]. injection SB as <- _. reflexivity.
  - destruct x; try contradiction. cbn [in_place blanked string_cursor] in *. destruct P as (_ & _ & T & P). cbn [sbody string_cursor] in SB. destruct (_ =? _); [|discriminate]. cbn [spiece bind] in SB.
    destruct (sbody (c_end c) ps stop) as [[ks2 rq2]|] eqn:S2; [|discriminate]. cbn [bind] in SB. injection SB as <- _. cbn [coalesce]. rewrite (IH _ _ _ _ P S2), T, <- !app_assoc. reflexivity.
Qed.
Lemma text_code_inj a b : @text_code LI E a = text_code b -> a = b.
Proof. destruct a, b; cbn; congruence. Qed.
End Facts.

(** What is between the tokens of a string, whatever it is, counts as that many spaces. *)
Theorem C58_between : forall LI E c paren (ps : list (string_item LI E)) src,
  let a := p_col (after_open paren) in let b := p_col (before_close paren) in
  accepted [QString c paren ps] -> in_place src a ps b ->
  let spaced := firstn a src ++ blanked src a ps b ++ skipn b src in
  spelled spaced a ps b /\
  quote_code [QString c paren ps] =
  Some (existsb is_eval ps,
        SItem (OpenQuote (existsb is_eval ps)) :: coalesce [] (source_pieces spaced a ps b) ++ [SItem CloseQuote]).
Proof.
  intros LI E c paren ps src a b A P spaced. pose proof (place_le _ _ _ _ P) as PL. pose proof (blanked_length _ _ _ _ P) as BL.
  assert (S : spelled spaced a ps b).
  { apply (spelled_blanked src spaced ps b a P).
    - unfold spaced. rewrite !app_length, BL, firstn_length, skipn_length. lia.
    - unfold spaced, slice. rewrite skipn_app, firstn_length, Nat.min_l by lia. rewrite skipn_all2 by (rewrite firstn_length; lia). rewrite Nat.sub_diag. cbn [app skipn].
      rewrite firstn_app, BL, Nat.sub_diag. cbn [firstn]. rewrite app_nil_r. apply firstn_all2. rewrite BL. apply Nat.le_refl. }
  split; [exact S|]. apply C58_source_partial; assumption.
Qed.
Print Assumptions C58_between.

(** A string of plain tokens is its source exactly if only spaces are between them. *)
Theorem C58_constant_exact : forall LI E c paren (ps : list (string_item LI E)) src,
  let a := p_col (after_open paren) in let b := p_col (before_close paren) in
  accepted [QString c paren ps] -> in_place src a ps b ->
  Forall (fun p => match p with PText _ _ => True | _ => False end) ps ->
  (quote_code [QString c paren ps] = Some (false, SItem (OpenQuote false) :: text_code (slice src a b) ++ [SItem CloseQuote]) <->
   spelled src a ps b).
Proof.
  intros LI E c paren ps src a b A P F. split; [|intros S; apply C58_constant_partial; assumption].
  intros H. apply (spelled_iff src ps b a P). rewrite string_code in H. change (inner_start paren) with (after_open paren) in H. change (inner_end paren) with (before_close paren) in H. destruct (sbody (after_open paren) ps (before_close paren)) as [[ks rq]|] eqn:SB; cbn [bind] in H; [|discriminate].
  assert (EV : existsb is_eval ps = false) by (clear -F; induction F as [|[] ps H _ IH]; try contradiction; auto). rewrite EV in H. injection H as H. apply app_inv_tail in H. rewrite (constant_text src ps _ F _ _ _ [] P SB) in H. symmetry. exact (text_code_inj _ _ H).
Qed.
Print Assumptions C58_constant_exact.

(** A tab and a comment. *)
Example C58_between_example :
  let src := $"$[str](a" ++ [9%N] ++ $"b/**/c)" in
  let ps := [@PText nat nat (word 1 7 $"a") $"a"; PText (word 1 9 $"b") $"b"; PText (word 1 14 $"c") $"c"] in
  let paren := mk_cursor (mk_pos 1 6) (mk_pos 1 16) in
  accepted [QString (mk_cursor (mk_pos 1 0) (mk_pos 1 16)) paren ps] /\
  in_place src (p_col (after_open paren)) ps (p_col (before_close paren)) /\
  blanked src (p_col (after_open paren)) ps (p_col (before_close paren)) = $"a b    c".
Proof. cbv zeta. split; [vm_compute; discriminate|]. split; [|vm_compute; reflexivity]. cbn. repeat split; try lia; vm_compute; reflexivity. Qed.
