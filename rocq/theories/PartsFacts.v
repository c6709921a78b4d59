(** * Lemmas: the tokens of programs assembled from quotes. *)
From Verif Require Import Str SpecStr StrFacts Values Fmt SpecFmt Macro SpecMacro SpecQuote SpecWords SpecReread Parse SpecParse SpecLex RespaceFacts RereadFacts SpecProgram ProgramFacts UseFacts SpecAssembled AssembledFacts SpecParts.

(** ** The text of a program is its parts with white space *)
Section Spaced.
Context (literal : str -> str).
(** Parts in a layout. *)
Inductive spread : list stretch -> str -> Prop :=
| spread_end : spread [] []
| spread_gap b l t : all_white b -> b <> [] -> spread l t -> spread (Gap :: l) (b ++ t)
| spread_chars s l t : spread l t -> spread (Chars s :: l) (s ++ t)
| spread_string v l t : spread l t -> spread (StringOf v :: l) (literal v ++ t).
Lemma spread_app a s b t : spread a s -> spread b t -> spread (a ++ b) (s ++ t).
Proof. induction 1; intros H2; cbn [app]; rewrite <- ?app_assoc; try constructor; auto. Qed.
Lemma spread_none : spread [] []. Proof. constructor. Qed.
Lemma spread_white b : all_white b -> b <> [] -> spread [Gap] b.
Proof. intros W N. rewrite <- (app_nil_r b). constructor; auto. constructor. Qed.
Lemma spread_text s : spread [Chars s] s.
Proof. rewrite <- (app_nil_r s) at 2. constructor. constructor. Qed.
Lemma spread_literal v : spread [StringOf v] (literal v).
Proof. rewrite <- (app_nil_r (literal v)). constructor. constructor. Qed.

Context {LI : Type} (newline : str) (ind : indentation_kind) (reference : LI -> str).
Hypothesis W : all_white newline.
Hypothesis NE : newline <> [].
Lemma white_space : all_white $" ". Proof. repeat constructor. Qed.
Lemma white_line n : all_white (new_line_at newline ind n) /\ new_line_at newline ind n <> [].
Proof.
  unfold new_line_at. split; [apply Forall_app; split; [exact W|apply white_indent]|]. destruct newline; [congruence|discriminate].
Qed.
Lemma spread_control n k : spread [Gap] (control_text newline ind n k).
Proof.
  destruct k; cbn [control_text]; apply spread_white; try apply white_line; try discriminate; try apply white_space.
  - apply Forall_app. split; [exact W|apply white_line].
  - destruct newline; [congruence|discriminate].
Qed.
Lemma spread_separator n s : spread (separator_parts s) (separator_text newline ind n s).
Proof.
  unfold separator_parts, separator_text. apply spread_app; [destruct (s_space s); [apply spread_white; [apply white_space|discriminate]|constructor]|].
  apply spread_app; [apply spread_text|]. destruct (s_then s); [apply spread_control|constructor].
Qed.
Lemma spread_between sep s : spread sep s -> forall a b, Forall2 spread a b -> spread (between_parts sep a) (join s b).
Proof.
  intros S. induction 1 as [|x y a b H F IH]; [constructor|]. cbn [between_parts join]. destruct F as [|x' y' a b H' F]; [exact H|].
  apply spread_app; [exact H|]. apply spread_app; [exact S|exact IH].
Qed.
Notation matches := (Forall2 (fun (a : cursor * list stretch) (b : cursor * (nat -> str)) => fst a = fst b /\ forall n, spread (snd a) (snd b n))).
Lemma spread_following n a b : matches a b -> forall before prev, spread (following_parts prev a) (following newline ind n before prev b).
Proof.
  induction 1 as [|[c ps] [c' f] a b [H1 H2] _ IH]; intros before prev; [constructor|]. cbn [fst snd] in *. subst c'. cbn [following_parts following]. unfold apart.
  destruct (p_line (c_start c) =? p_line prev).
  - cbn [andb]. apply spread_app; [|apply spread_app; auto]. destruct (p_col (c_start c) =? p_col prev); cbn [negb gap_if]; [constructor|].
    apply spread_white; [apply white_space|discriminate].
  - cbn [andb negb gap_if]. set (m := n + level _). rewrite (app_assoc (if p_line (c_start c) =? S (p_line prev) then [] else newline)). apply spread_app; [|apply spread_app; auto].
    destruct (white_line m) as [W1 N1].
    apply spread_white; [apply Forall_app; split; [destruct (_ =? _); [constructor|exact W]|exact W1]|].
    intros E0. apply app_eq_nil in E0 as [_ E0]. contradiction.
Qed.
Lemma spread_words n a b : matches a b -> spread (words_parts a) (words_text newline ind n b).
Proof.
  destruct 1 as [|[c ps] [c' f] a b [H1 H2] H]; [constructor|]. cbn [fst snd] in *. subst c'. cbn [words_parts words_text].
  apply spread_app; [apply H2|apply spread_following; exact H].
Qed.
Lemma spread_piece : forall (x : piece LI) w n, spread (piece_parts reference w x) (piece_text newline ind literal reference w x n).
Proof.
  fix IH 1. intros [|v|v|i|l|sep ls] w n; cbn [piece_parts piece_text]; try apply spread_text; [apply spread_literal| |].
  - apply spread_words. induction l as [|[c [w' x]] l IHl]; constructor; [|exact IHl]. split; [reflexivity|]. intros m. apply IH.
  - apply spread_between; [apply spread_separator|]. induction ls as [|l ls IHls]; constructor; [|exact IHls].
    apply spread_words. clear IHls. induction l as [|[c [w' x]] l IHl]; constructor; [|exact IHl]. split; [reflexivity|]. intros m. apply IH.
Qed.
Lemma spread_program n (l : program LI) : spread (program_parts reference l) (program_text newline ind literal reference n l).
Proof.
  apply spread_words. induction l as [|[c [w x]] l IH]; constructor; [|exact IH]. split; [reflexivity|]. intros m. apply spread_piece.
Qed.
End Spaced.

(** ** The tokens of parts in a layout *)
Section Tokens.
Context (literal : str -> str).
Hypothesis literal_quote : forall v, exists r, literal v = 34%N :: r.
Context (g : grammar) (good : str -> Prop) (value : str -> list N).
Hypothesis stop_here : forall c n n', g_stop g c n = g_stop g c n'.
Hypothesis literal_reads : forall v rest, good v -> read_literal g (literal v ++ rest) = Some (value v, rest).
Lemma spread_alike l t : spread literal l t -> alike (parts_line l) t.
Proof.
  induction 1 as [|b l t B N _ IH|s l t _ IH|v l t _ IH]; cbn [parts_line flat_map part_line].
  - apply alike_white; exact I.
  - apply alike_white; [reflexivity|apply ends_app; assumption].
  - apply alike_app. exact IH.
  - destruct (literal_quote v) as [r R]. rewrite R. apply alike_quote.
Qed.
Lemma spread_read l K : parts_read g good value l K -> forall t, spread literal l t -> exists L, consists g t L /\ map fst L = K.
Proof.
  induction 1 as [|l K _ IH|s l K1 K O _ IH|s s' l K _ IH|v l K V _ IH]; intros t H.
  - inversion H; subst. exists []. split; [constructor|reflexivity].
  - inversion H as [|b ? t' B N H'| |]; subst. destruct (IH _ H') as (L & C & M). exists L. split; [apply consists_prefix; auto|exact M].
  - inversion H as [| |? ? t' H'|]; subst. destruct (IH _ H') as (L & C & M).
    destruct (over_consists_in g stop_here _ _ _ O t' L (spread_alike _ _ H') C) as (L' & C' & M'). exists L'. split; [exact C'|]. rewrite M', M. reflexivity.
  - inversion H as [| |? ? t' H'|]; subst. inversion H' as [| |? ? t2 H2|]; subst. apply IH. rewrite app_assoc. constructor. exact H2.
  - inversion H as [| | |? ? t' H']; subst. destruct (IH _ H') as (L & C & M). exists ((WString (value v), literal v) :: L). split; [|cbn; rewrite M; reflexivity].
    destruct (literal_quote v) as [y Y]. constructor; [rewrite Y; reflexivity| |exact C]. pose proof (literal_reads v t' V) as LR. rewrite Y in *. cbn [app read_token]. cbn [app] in LR. rewrite LR. reflexivity.
Qed.
End Tokens.
