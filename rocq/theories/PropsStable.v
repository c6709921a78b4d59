(** * Quotes without line information (C68).

    Vocabulary: [SpecStable.v]. *)
From Verif Require Import Str Tokens SpecTokens TokensRun Values Fmt SpecFmt OutputFacts
  Macro SpecMacro MacroFacts Parse SpecParse ParseFacts Source SpecQuote PropsFmt PropsMacro PropsParse Fake SpecStable StableFacts.

(** ** Places *)

(** The place of a token is read off the text of its span: the byte offsets are
    columns of one line, and a place that spans two tokens reaches from the start
    of the first to the end of the second. *)
Theorem C68_offsets : forall before a b, ~ In 40%N before -> (a < 2 ^ 64)%N -> (b < 2 ^ 64)%N ->
  compat_cursor (span_text before a b) = Some (mk_cursor (mk_pos 1 (N.to_nat a)) (mk_pos 1 (N.to_nat b))) /\
  forall before' a' b', ~ In 40%N before' -> (a' < 2 ^ 64)%N -> (b' < 2 ^ 64)%N ->
  compat_join (span_text before a b) (span_text before' a' b') =
    Some (mk_cursor (mk_pos 1 (N.to_nat a)) (mk_pos 1 (N.to_nat b'))).
Proof.
  intros before a b N A B. pose proof (offsets before a b N A B) as O. split.
  - unfold compat_cursor. rewrite O. reflexivity.
  - intros before' a' b' N' A' B'. unfold compat_join. rewrite O. cbn [bind].
    rewrite (offsets before' a' b' N' A' B'). reflexivity.
Qed.
Print Assumptions C68_offsets.

(** Whatever the spans are, all places are on the first line. *)
Theorem C68_rows : forall d d' c, compat_cursor d = Some c \/ compat_join d d' = Some c -> on_line 1 c.
Proof.
  intros d d' c [H|H]; unfold compat_cursor, compat_join in H;
    destruct (find_line_column_inner d) as [[a b]|]; try discriminate; cbn [bind] in H;
    [|destruct (find_line_column_inner d') as [[a' b']|]; try discriminate; cbn [bind] in H];
    injection H as <-; split; reflexivity.
Qed.
Print Assumptions C68_rows.

(** ** Quotes on one line *)

(** No quote on one line is rejected for its indentation. *)
Theorem C68_accepted : forall LI E P X (R : rust LI E P X), consuming R -> forall row ts qs,
  all_on_line row ts -> parse R ts = Some qs -> accepted qs.
Proof.
  intros LI E P X R C row ts qs A Q. apply (flat_accepted row). apply (reads_on row R C ts); [|exact A].
  apply C61_grammar; assumption.
Qed.
Print Assumptions C68_accepted.

(** It asks for no line break or indentation, unless by what is inserted or by
    [$['\r']] and [$['\n']]. *)
Theorem C68_one_line : forall LI E P X (R : rust LI E P X), consuming R -> forall row ts qs,
  all_on_line row ts -> parse R ts = Some qs -> calm qs ->
  forall e t, unbroken t -> exists e' t', quote_in qs e t = Some (e', t') /\ unbroken t'.
Proof.
  intros LI E P X R C row ts qs A Q K e t U.
  pose proof (C68_accepted _ _ _ _ R C row ts qs A Q) as Y.
  destruct (quote_in qs e t) as [[e' t']|] eqn:H.
  - exists e', t'. split; [reflexivity|]. apply (flat_unbroken row qs e t e' t'); [|exact K|exact H|exact U].
    apply (reads_on row R C ts); [|exact A]. apply C61_grammar; assumption.
  - exfalso. apply Y. unfold quote_in in H. destruct (quote_code qs); [discriminate|reflexivity].
Qed.
Print Assumptions C68_one_line.

(** What asks for none is written the same with all indentations and line
    terminators. *)
Theorem C68_configuration : forall LI W (ops : lang_ops LI) cfg cfg' (wr : writer W) t w, unbroken t ->
  format_items ops cfg wr (items t) (formatter_new w) = format_items ops cfg' wr (items t) (formatter_new w).
Proof. intros LI W ops cfg cfg' wr t w U. apply items_config. exact U. Qed.
Print Assumptions C68_configuration.

(** Tokens that stand for themselves are written on one line, with one space where
    anything, be it blanks or line breaks, is between them. *)
Lemma flats_line : forall row ts, all_on_line row ts -> Forall (fun p => on_line row (fst p)) (flats ts).
Proof.
  intros row ts A. unfold flats. apply Forall_flat_map. revert A. apply Forall_impl.
  intros t. induction t as [t L|c d l IH] using tree_ind'; intros H.
  - destruct t; try contradiction; cbn; repeat constructor; apply H.
  - cbn [tree_all] in H. destruct H as [Hc Hl]. cbn [flat]. constructor; [|apply Forall_app; split].
    + destruct Hc. split; cbn; assumption.
    + apply Forall_flat_map. induction IH as [|t l It Il IHl]; constructor; [apply It|apply IHl]; tauto.
    + destruct Hc. repeat constructor; cbn; assumption.
Qed.

Theorem C68_words : forall LI E P X (R : rust LI E P X), consuming R ->
  forall (ops : lang_ops LI) cfg row ts, all_on_line row ts ->
  forallb no_strings ts = true -> forallb no_dollars ts = true ->
  Forall (fun p => snd p <> []) (flats ts) ->
  exists qs, parse R ts = Some qs /\ forall e : E, exists t, quote qs e = Some (e, t) /\
  outcome (format_items ops cfg string_writer (items t) (formatter_new [])) =
    (spaced_words None (map (fun p => (p_col (c_start (fst p)), p_col (c_end (fst p)), snd p)) (flats ts)), true).
Proof.
  intros LI E P X R C ops cfg row ts A N D F. destruct (C62_tokens _ _ _ _ R C ts N D) as (qs & Q & T).
  exists qs. split; [exact Q|]. apply (words_render ops cfg qs row).
  - rewrite T, map_map. apply map_ext_in. intros p I. pose proof (proj1 (Forall_forall _ _) (flats_line row ts A) p I) as [L1 L2].
    destruct p as [[[l1 c1] [l2 c2]] w]. cbn in *. subst. reflexivity.
  - apply Forall_map. exact F.
Qed.
Print Assumptions C68_words.

(** ** Examples *)

Example C68_offsets_example :
  compat_cursor $"#0 bytes(12..34)" = Some (mk_cursor (mk_pos 1 12) (mk_pos 1 34)) /\
  span_text $"#0 bytes" 12 34 = $"#0 bytes(12..34)" /\
  compat_join $"#0 bytes(12..13)" $"#5 bytes(30..34)" = Some (mk_cursor (mk_pos 1 12) (mk_pos 1 34)) /\
  compat_cursor $"no such text" = None.
Proof. vm_compute. auto. Qed.

(** The token trees of a text as such compilers show them, with the text starting
    at the first byte of the program. *)
Fixpoint relocate (f : pos -> pos) (t : tree) : tree :=
  let at_ c := mk_cursor (f (c_start c)) (f (c_end c)) in
  match t with
  | TIdent c s => TIdent (at_ c) s
  | TLit c s => TLit (at_ c) s
  | TStr c s v => TStr (at_ c) s v
  | TChar c s v => TChar (at_ c) s v
  | TPunct c ch j => TPunct (at_ c) ch j
  | TGroup c d ts => TGroup (at_ c) d (map (relocate f) ts)
  end.
Fixpoint offset_in (p : pos) (l c : nat) (s : str) : nat :=
  if (p_line p =? l) && (p_col p =? c) then 0
  else match s with
       | [] => 0
       | ch :: s' => S (if N.eqb ch 10 then offset_in p (S l) 0 s' else offset_in p l (S c) s')
       end.
Definition stable_trees (s : str) : option (list tree) :=
  option_map (map (relocate (fun p => mk_pos 1 (offset_in p 1 0 s)))) (trees s).
Definition stable_printed (src : str) (e : environment nat) : option str :=
  bind (stable_trees src) (fun ts =>
  bind (parse (table_rust demo_table) ts) (fun qs =>
  bind (quote qs e) (fun r =>
  Some (fst (outcome (format_items demo_ops (mk_config (ISpace 2) [10%N]) string_writer (items (snd r)) (formatter_new []))))))).

Example C68_words_example : exists ts, stable_trees demo_text = Some ts /\ all_on_line 1 ts /\
  forallb no_strings ts = true /\ forallb no_dollars ts = true /\
  Forall (fun p => snd p <> []) (flats ts) /\
  stable_printed demo_text [] = Some $"fn main() { a b[c, (d)] }".
Proof.
  eexists. split; [vm_compute; reflexivity|].
  split; [vm_compute; repeat first [constructor | split]|].
  split; [reflexivity|]. split; [reflexivity|].
  split; [vm_compute; repeat constructor; discriminate|vm_compute; reflexivity].
Qed.

(** The same quote with and without line information. *)
Example C68_layout :
  exists src, printed src [] <> stable_printed src [] /\
  printed src [] = Some $"fn main() {
  a

    b[c, (d)]
}" /\ stable_printed src [] = Some $"fn main() { a b[c, (d)] }".
Proof. exists demo_text. vm_compute. repeat split; discriminate. Qed.

(** Wrongly indented lines are accepted there. *)
Example C68_accepted_example :
  quote_text demo_table $"a {
        b
    c
}" [] = None /\
  stable_printed $"a {
        b
    c
}" [] = Some $"a { b c }".
Proof. vm_compute. auto. Qed.

Example C68_one_line_example :
  stable_printed $"a(
    $x,
    $(if a < b { yes } else { no })
    $(for i in 0..3 join (, ) => <$i>)
)" [($"x", VStr $"1")] = Some $"a( 1, yes <0>, <1>, <2> )" /\
  (exists ts qs, stable_trees $"a(
    b)" = Some ts /\ all_on_line 1 ts /\ parse (table_rust demo_table) ts = Some qs /\ calm qs /\ @unbroken nat new).
Proof.
  split; [vm_compute; reflexivity|].
  eexists. eexists. split; [vm_compute; reflexivity|]. split; [|split; [vm_compute; reflexivity|]].
  - vm_compute. repeat first [constructor | split].
  - split; [|constructor]. split; [|reflexivity]. repeat constructor.
Qed.
