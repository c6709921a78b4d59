(** * When appending is replaying (C05, C60), and when a line break before an empty
    line does not matter (C06): exactly. *)
From Verif Require Import Str Tokens SpecTokens TokensRun TokensFacts AlgebraFacts Values ValuesFacts Macro SpecMacro SpecQuote MacroFacts MacroSem MacroTokens PropsMacro PropsControl
SpecReplay ReplayFacts.

(** ** C05: appending, replaying, associativity *)

(** Appending a stream is making the calls it was built by exactly if the white
    space these calls start with does to the end of the target what is left of it. *)
Theorem C05_append_replay : forall LI (as_ cs : list (call LI)) body w u rest,
  suffix_split is_gap (items (build as_)) body w -> prefix_split is_white (flat_map call_parts cs) u rest ->
  (append_tokens (build cs) (build as_) = run cs (build as_) <->
   same_effect (fun u2 => items (from_iter u2)) w u).
Proof.
  intros LI as_ cs body w u rest S P. rewrite run_extend, build_from_iter. apply append_extend_iff with (body := body) (rest := rest); auto; [apply build_wf|apply build_canon].
Qed.
Print Assumptions C05_append_replay.

(** Appending is associative exactly under the same condition on the streams. *)
Theorem C05_append_assoc : forall LI (as_ bs cs : list (call LI)) body w u rest,
  suffix_split is_gap (items (build as_)) body w -> prefix_split is_white (items (build bs) ++ items (build cs)) u rest ->
  (append_tokens (append_tokens (build cs) (build bs)) (build as_) =
   append_tokens (build cs) (append_tokens (build bs) (build as_)) <->
   same_effect (fun u2 => items (from_iter u2)) w u).
Proof.
  intros LI as_ bs cs body w u rest S P.
  rewrite <- (append_extend_iff _ body w _ u rest (build_wf as_) (build_canon as_) S P).
  assert (E : append_tokens (build cs) (build bs) = from_iter (items (build bs) ++ items (build cs))).
  { unfold append_tokens, from_iter. rewrite extend_app. change (extend (items (build bs)) new) with (from_iter (items (build bs))). rewrite rebuild_tokens by (apply build_wf || apply build_canon). reflexivity. }
  rewrite E. unfold append_tokens at 2 3. rewrite extend_app. reflexivity.
Qed.
Print Assumptions C05_append_assoc.

(** Every stream and every sequence of calls splits like this. *)
Theorem C05_splits : forall LI (as_ cs : list (call LI)),
  (exists body w, suffix_split is_gap (items (build as_)) body w) /\
  (exists u rest, prefix_split is_white (flat_map call_parts cs) u rest).
Proof.
  intros LI as_ cs. split; [apply suffix_split_exists|]. induction (flat_map call_parts cs) as [|x xs (u & rest & -> & U & R)].
  - exists [], []. split; [reflexivity|]. split; [constructor|exact I].
  - destruct (is_white x) eqn:X.
    + exists (x :: u), rest. split; [reflexivity|]. split; [constructor; auto|exact R].
    + exists [], (x :: u ++ rest). split; [reflexivity|]. split; [constructor|exact X].
Qed.
Print Assumptions C05_splits.

(** Both directions are met: an empty line asked for on its own, after a pending
    space, is appended like it is replayed; after a line break it is not. *)
Example C05_same : same_effect (fun u2 => items (from_iter u2)) [Space] [@Line nat; Indentation 1; Push].
Proof.
  split.
  - intros F. inversion F as [|? ? _ F2]. inversion F2; discriminate.
  - intros u1 k u2 E _ N. vm_compute in N. discriminate.
Qed.
Example C05_different : ~ same_effect (fun u2 => items (from_iter u2)) [Space] [@Push nat; Line].
Proof.
  intros [H _]. apply (H ltac:(repeat constructor)) with (w' := []); [|reflexivity]. exists [], []. split; [reflexivity|constructor].
Qed.
Example C05_levels : ~ same_effect (fun u2 => items (from_iter u2)) [Space] [@Indentation nat 1; Indentation (-1); Push; Line; Space].
Proof.
  intros [_ H]. specialize (H [Indentation 1] (-1)%Z [Push; Line; Space] eq_refl ltac:(repeat constructor) eq_refl). vm_compute in H. intuition.
Qed.
Example C05_levels_same : same_effect (fun u2 => items (from_iter u2)) [Space] [@Indentation nat 1; Indentation (-1); Push].
Proof.
  split.
  - intros F. inversion F. discriminate.
  - intros u1 k u2 E F _. destruct u1 as [|x1 [|x2 u1]].
    + injection E as <- <-. inversion F. discriminate.
    + injection E as <- <- <-. vm_compute. intuition discriminate.
    + injection E as <- <- E. destruct u1 as [|x3 [|x4 u1]]; discriminate E.
Qed.
Example C05_same_split :
  suffix_split is_gap (items (build [CItem (Literal (Box $"a")); CSpace])) [Literal (Box $"a")] [@Space nat] /\
  prefix_split is_white (flat_map call_parts [CIndent; CUnindent; CPush; CItem (Literal (Box $"b"))]) [@Indentation nat 1; Indentation (-1); Push] [Literal (Box $"b")] /\
  append_tokens (build [CIndent; CUnindent; CPush; CItem (Literal (Box $"b"))]) (build [CItem (Literal (Box $"a")); CSpace]) =
    run [CIndent; CUnindent; CPush; CItem (Literal (Box $"b"))] (@build nat [CItem (Literal (Box $"a")); CSpace]).
Proof.
  split; [|split; [|reflexivity]].
  - split; [reflexivity|]. split; [repeat constructor|]. intros pre x E. apply (app_inj_tail []) in E as [_ <-]. reflexivity.
  - split; [reflexivity|]. split; [repeat constructor|reflexivity].
Qed.

(** ** C60: quoting into a stream *)

(** Quoting into a stream is quoting and appending exactly if the white space the
    quote starts with has the same effect. *)
Theorem C60_append : forall LI E (qs : list (quoted_item LI E)) e e' q e2 t (before : list (call LI)) body w u rest,
  quote qs e = Some (e', q) -> quote_in qs e (build before) = Some (e2, t) ->
  suffix_split is_gap (items (build before)) body w -> prefix_split is_white (fst (quote_mean qs e)) u rest ->
  e2 = e' /\ (t = append_tokens q (build before) <-> same_effect (fun u2 => items (from_iter u2)) w u).
Proof.
  intros LI E qs e e' q e2 t before body w u rest Q QI S P. unfold quote, quote_in in *. destruct (quote_code qs) as [[r code]|] eqn:C; [|discriminate]. cbn [option_map snd] in *.
  injection Q as Q. rewrite (quote_supplies _ _ _ C e new) in Q. apply pair_equal_spec in Q as [<- <-].
  injection QI as QI. rewrite (quote_supplies _ _ _ C e (build before)) in QI. apply pair_equal_spec in QI as [<- <-]. split; [reflexivity|].
  rewrite <- (append_extend_iff _ body w _ u rest (build_wf before) (build_canon before) S P).
  change (extend (fst (quote_mean qs e)) new) with (from_iter (fst (quote_mean qs e))). split; intros H; symmetry; exact H.
Qed.
Print Assumptions C60_append.

(** ** C06: an empty line after a line break *)

(** A line break directly before an empty line makes no difference exactly if no
    space is pending. *)
Theorem C06_line_after_push : forall LI (t : tokens LI),
  line (push t) = line t <->
  (forall pre post, items t = pre ++ Space :: post -> exists y, In y post /\ space_or_push y = false).
Proof.
  intros LI t. split; [|apply line_push]. intros E pre post T. destruct (existsb (fun y => negb (space_or_push y)) post) eqn:X.
  - apply existsb_exists in X as (y & I & Y). exists y. split; [exact I|]. destruct (space_or_push y); [discriminate|reflexivity].
  - exfalso. apply (f_equal ritems) in E. cbn [line push ritems] in E.
    assert (R : ritems t = rev post ++ Space :: rev pre).
    { unfold items in T. apply (f_equal (@rev _)) in T. rewrite rev_involutive, rev_app_distr in T. cbn [rev] in T. rewrite <- app_assoc in T. exact T. }
    rewrite R in E. assert (F : Forall (fun y => space_or_push y = true) (rev post)).
    { apply Forall_rev, Forall_forall. intros y I. destruct (space_or_push y) eqn:Y; [reflexivity|]. exfalso. assert (K : existsb (fun y => negb (space_or_push y)) post = true); [|congruence].
      apply existsb_exists. exists y. rewrite Y. auto. }
    revert E. clear R T X. induction F as [|y r Y F IH]; cbn [app].
    + cbn [push_loop line_loop]. intros E. pose proof (line_push_length (rev pre)) as L. rewrite E in L. cbn [length] in L. lia.
    + destruct y; try discriminate Y; cbn [push_loop line_loop]; [exact IH|]. intros E.
      assert (L : length (line_loop (push_loop (r ++ Space :: rev pre))) <= S (length (r ++ Space :: rev pre))) by apply line_push_length.
      rewrite E in L. cbn [length] in L. lia.
Qed.
Print Assumptions C06_line_after_push.

(** Two absent values, the second on an indented line, then a word: quoted into a
    stream that ends in a line break, the break is taken. *)
Definition C60_quote : list (quoted_item nat nat) :=
  [QEval (word 1 0 $"$x") (fun e => (VOption None, e)); QEval (word 2 4 $"$y") (fun e => (VOption None, e)); QText (word 3 0 $"b") $"b"].
Example C60_break : exists q t,
  quote C60_quote 0 = Some (0, q) /\ quote_in C60_quote 0 (build [CItem (Literal (Box $"a")); CPush]) = Some (0, t) /\
  suffix_split is_gap (items (@build nat [CItem (Literal (Box $"a")); CPush])) [Literal (Box $"a")] [Push] /\
  prefix_split is_white (fst (quote_mean C60_quote 0)) [Indentation 1; Indentation (-1)] [Literal (Static $"b")] /\
  ~ same_effect (fun u2 => items (from_iter u2)) [Push] [@Indentation nat 1; Indentation (-1)] /\
  items t = [Literal (Box $"a"); Literal (Static $"b")] /\
  items (append_tokens q (build [CItem (Literal (Box $"a")); CPush])) = [Literal (Box $"a"); Push; Literal (Static $"b")].
Proof.
  eexists _, _. split; [vm_compute; reflexivity|]. split; [vm_compute; reflexivity|]. split; [|split; [|split]].
  - split; [reflexivity|]. split; [repeat constructor|]. intros pre x E. apply (app_inj_tail []) in E as [_ <-]. reflexivity.
  - split; [vm_compute; reflexivity|]. split; [repeat constructor|reflexivity].
  - intros [_ H]. specialize (H [Indentation 1] (-1)%Z [] eq_refl (Forall_nil _) eq_refl). discriminate H.
  - split; vm_compute; reflexivity.
Qed.

(** ** C01: which streams are empty *)

Lemma indentation_empty {LI} (r : list (item LI)) : forall n, indentation_loop n r = [] <->
  Forall (fun x => is_white x = true) r /\ (n + net_indentation r = 0)%Z.
Proof.
  assert (C : forall x r (b c : Prop), is_white x = true -> (b <-> c) -> Forall (fun x : item LI => is_white x = true) r /\ b <-> Forall (fun x => is_white x = true) (x :: r) /\ c).
  { intros x r' b c W H. rewrite H. split; intros [F K]; (split; [|exact K]); [constructor; assumption|inversion F; assumption]. }
  assert (D : forall x r n (c : Prop), is_white x = false -> ((if Z.eqb n 0 then x :: r else Indentation n :: x :: r) = [] <-> Forall (fun x : item LI => is_white x = true) (x :: r) /\ c)).
  { intros x r' n c W. split; [destruct (Z.eqb n 0); discriminate|]. intros [F _]. inversion F. congruence. }
  induction r as [|x r IH]; intros n.
  - cbn. destruct (Z.eqb_spec n 0) as [->|N]; [split; [split; [constructor|reflexivity]|reflexivity]|]. split; [discriminate|]. intros [_ H]. lia.
  - destruct x; cbn [indentation_loop]; try (apply D; reflexivity); rewrite IH; apply C; try reflexivity; cbn [net_indentation indentation_of]; lia.
Qed.
Lemma white_pieces {LI} (xs : list (item LI)) : Forall (fun x => is_white x = true) xs <-> filter (fun x => negb (is_white x)) xs = [].
Proof.
  induction xs as [|x xs IH]; [split; constructor|]. cbn [filter]. destruct (is_white x) eqn:W; cbn [negb].
  - rewrite <- IH. split; [intros F; inversion F; assumption|constructor; assumption].
  - split; [intros F; inversion F; congruence|discriminate].
Qed.
Lemma white_loops {LI} (r : list (item LI)) :
  (Forall (fun x => is_white x = true) (push_loop r) <-> Forall (fun x => is_white x = true) r) /\
  (Forall (fun x => is_white x = true) (line_loop r) <-> Forall (fun x => is_white x = true) r) /\
  (forall n, Forall (fun x => is_white x = true) (indentation_loop n r) <-> Forall (fun x => is_white x = true) r).
Proof.
  assert (C : forall x r, is_white x = true -> (Forall (fun x : item LI => is_white x = true) (x :: r) <-> Forall (fun x => is_white x = true) r)).
  { intros x r' W. split; [intros F; inversion F; assumption|constructor; assumption]. }
  split; [|split].
  - induction r as [|x r IH]; [apply C; reflexivity|]. destruct x; cbn [push_loop]; try reflexivity; try (apply C; reflexivity); rewrite IH; symmetry; apply C; reflexivity.
  - induction r as [|x r IH]; [apply C; reflexivity|]. destruct x; cbn [line_loop]; try reflexivity; try (apply C; reflexivity); rewrite IH; symmetry; apply C; reflexivity.
  - induction r as [|x r IH]; intros n; [cbn [indentation_loop]; destruct (Z.eqb n 0); [reflexivity|apply C; reflexivity]|].
    destruct x; cbn [indentation_loop]; try (destruct (Z.eqb n 0); [reflexivity|apply C; reflexivity]); rewrite IH; symmetry; apply C; reflexivity.
Qed.
Lemma white_items {LI} (xs : list (item LI)) : forall t : tokens LI, Forall (fun x => is_white x = true) (ritems (extend xs t)) <-> Forall (fun x => is_white x = true) (ritems t) /\ Forall (fun x => is_white x = true) xs.
Proof.
  induction xs as [|x xs IH]; intros t; [intuition|]. change (extend (x :: xs) t) with (extend xs (add_item x t)). rewrite IH.
  assert (A : Forall (fun x => is_white x = true) (ritems (add_item x t)) <-> Forall (fun x => is_white x = true) (ritems t) /\ is_white x = true).
  { destruct (white_loops (ritems t)) as (P & L & N). destruct (is_white x) eqn:W.
    - destruct x; try discriminate W; cbn [add_item push line indentation ritems]; rewrite ?P, ?L, ?N; try (intuition; fail).
      unfold space. destruct (ritems t) as [|y r] eqn:R; [cbn; rewrite R; split; [intros F; inversion F; auto|intros [F _]; constructor; auto]|].
      assert (K : Forall (fun x => is_white x = true) (@Space LI :: y :: r) <-> Forall (fun x => is_white x = true) (y :: r) /\ true = true) by (split; [intros F; inversion F; auto|intros [F _]; constructor; auto]).
      destruct y; cbn [vec_push ritems]; rewrite ?R; try exact K. intuition.
    - split; [|intuition discriminate]. intros F. exfalso. destruct x; try discriminate W; cbn [add_item vec_push lang_item lang_item_register ritems] in F; inversion F; discriminate. }
  rewrite A. split; [intros [[F W] F2]; split; [exact F|constructor; assumption]|]. intros [F F2]. inversion F2. auto.
Qed.

(** A stream is empty exactly if nothing but white space was requested, the changes
    of the level cancel, and nothing was requested after the last of them. *)
Theorem C01_is_empty : forall LI (cs : list (call LI)), let parts := flat_map call_parts cs in
  (is_empty (build cs) = true <-> build cs = new) /\
  (is_empty (build cs) = true <->
   Forall (fun x => is_white x = true) parts /\ net_indentation parts = 0%Z /\
   (parts = [] \/ exists a n, parts = a ++ [Indentation n])).
Proof.
  intros LI cs parts. assert (E : is_empty (build cs) = true <-> ritems (build cs) = []) by (unfold is_empty; destruct (ritems (build cs)); split; congruence).
  split; [rewrite E; split; [|intros ->; reflexivity]|rewrite E; clear E].
  - intros R. apply wf_same; [apply build_wf|apply (build_wf [])|exact R].
  - rewrite build_from_iter. fold parts. clearbody parts. unfold from_iter. destruct parts as [|x parts] using rev_ind.
    + split; [|reflexivity]. intros _. split; [constructor|]. split; [reflexivity|left; reflexivity].
    + clear IHparts. rewrite extend_app. change (extend [x] ?t) with (add_item x t).
      assert (LAST : (parts ++ [x] = [] \/ exists a n, parts ++ [x] = a ++ [Indentation n]) <-> exists n, x = Indentation n).
      { split; [intros [H|(a & n & H)]; [destruct parts; discriminate H|apply app_inj_tail in H as [_ ->]; eauto]|]. intros [n ->]. right. eauto. }
      rewrite LAST. clear LAST. assert (NO : is_indentation x = false -> ritems (add_item x (extend parts new)) <> []).
      { intros I H. destruct x; try discriminate I; cbn [add_item push line vec_push lang_item lang_item_register ritems] in H; try discriminate H.
        - clear -H. induction (ritems (extend parts new)) as [|y r IH]; [discriminate H|]. destruct y; cbn [push_loop] in H; try discriminate H; auto.
        - clear -H. induction (ritems (extend parts new)) as [|y r IH]; [discriminate H|]. destruct y; cbn [line_loop] in H; try discriminate H; auto.
        - unfold space in H. destruct (ritems (extend parts new)) as [|y r] eqn:R; [cbn in H; discriminate H|]. destruct y; cbn [vec_push ritems] in H; congruence. }
      destruct (is_indentation x) eqn:I; [|split; [intros H; exfalso; exact (NO eq_refl H)|intros (_ & _ & n & ->); discriminate I]].
      destruct x; try discriminate I. cbn [add_item indentation ritems]. rewrite indentation_empty, white_items, Forall_app.
      assert (NET : net_indentation (ritems (extend parts new)) = net_indentation parts).
      { pose proof (extend_net parts new) as K. unfold items in K. rewrite net_rev in K. cbn in K. exact K. }
      rewrite NET, net_app. cbn [net_indentation indentation_of]. split.
      * intros ((_ & F) & Z). split; [split; [exact F|repeat constructor]|]. split; [lia|eauto].
      * intros ((F & _) & Z & _). split; [split; [constructor|exact F]|lia].
Qed.
Print Assumptions C01_is_empty.
Example C01_is_empty_example :
  is_empty (@build nat [CSpace; CIndent; CPush; CUnindent]) = true /\ is_empty (@build nat [CIndent; CUnindent; CPush]) = false.
Proof. split; reflexivity. Qed.
