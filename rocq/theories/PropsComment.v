(** * Comment helpers (C49).

    Vocabulary: [SpecFmt.v] (histories and their layout), [SpecComment.v]. *)
From Verif Require Import Str Tokens SpecTokens TokensRun Values Fmt SpecFmt RenderFacts OutputFacts StringFacts SpecFile
  HeaderFacts LangBase LangDart LangJava LangCsharp SpecComment CommentFacts PropsFmt PropsLang.

Lemma rows_written {LI C F} (L : lang_def LI C F) helper lines (rows : list item_str -> list row) :
  (forall ls, map row_text (rows ls) = lines ls) ->
  (forall ls, Forall (fun w => content (w_prefix w) <> []) (rows ls)) ->
  (forall ls t, ritems (helper ls t) = fold_left row_run (rows ls) (ritems t)) ->
  writes_comment L helper lines.
Proof.
  intros E1 E2 E3 cfg c f h1 h2 ls N1 N2 NS.
  pose proof (comment_stream (rows ls) h1 h2 _ (E3 ls _)) as ES.
  destruct (rows ls) as [|w ws] eqn:ER.
  - rewrite <- E1, ER. cbn [map own_lines flat_map app].
    assert (X : ritems (run (map act_call h2) (helper ls (build (map act_call h1)))) = ritems (@build LI (map act_call (h1 ++ h2)))).
    { rewrite ES. cbn [fold_left]. destruct (@to_h_run LI (h1 ++ h2) [] 0) as [la E]. unfold build. change (@new LI) with (@mk_tokens LI [] 0).
      rewrite E. cbn [ritems]. rewrite map_app. unfold hrun. rewrite fold_left_app. reflexivity. }
    unfold renders, format, items. rewrite X.
    change (rev (ritems (build (map act_call (h1 ++ h2))))) with (items (@build LI (map act_call (h1 ++ h2)))).
    apply C21_history. apply Forall_forall. intros [] H; auto. apply in_app_or in H as [H|H]; auto.
  - rewrite <- ER in ES.
    assert (NE : rows ls <> []) by congruence.
    destruct (comment_rows (ld_ops L c f) cfg (rows ls) h1 h2 (run (map act_call h2) (helper ls (build (map act_call h1)))) N1 N2 NS (E2 ls) NE ES)
      as (ns & A1 & A2 & A3).
    unfold renders, format. rewrite A1, doc_string, A3, E1 by auto. reflexivity.
Qed.

Lemma line_comments {LI C F} (L : lang_def LI C F) prefix : prefix <> [] ->
  writes_comment L (for_each (fun ln t => t |> push |> st prefix |> space |> istr ln)) (line_comment prefix).
Proof.
  intros N. apply rows_written with (fun ls => map (fun l => mk_row false (Static prefix) (Some l)) ls).
  - intros ls. unfold line_comment. rewrite map_map. reflexivity.
  - intros ls. apply Forall_forall. intros w H. apply in_map_iff in H as [l [<- _]]. exact N.
  - apply rows_stream.
Qed.

Theorem C49_dart : writes_comment dart_lang dart_doc_comment (line_comment $"///").
Proof. apply line_comments. discriminate. Qed.
Print Assumptions C49_dart.
Theorem C49_csharp : writes_comment csharp_lang cs_comment (line_comment $"//").
Proof. apply line_comments. discriminate. Qed.
Print Assumptions C49_csharp.
Theorem C49_csharp_doc : writes_comment csharp_lang cs_block_comment (line_comment $"///").
Proof. apply line_comments. discriminate. Qed.
Print Assumptions C49_csharp_doc.
Theorem C49_java : writes_comment java_lang java_block_comment block_comment.
Proof.
  apply rows_written with (fun ls => match ls with [] => [] | _ =>
    mk_row false (Static $"/**") None :: map (fun l => mk_row true (Static $"*") (Some l)) ls ++ [mk_row true (Box $"*/") None] end).
  - intros [|l ls]; [reflexivity|]. unfold block_comment, line_comment. set (l' := l :: ls). clearbody l'.
    cbn [map]. f_equal. rewrite map_app, map_map. f_equal. apply map_ext. intros x. unfold row_text, comment_line.
    cbn [w_lead w_tail w_prefix content]. destruct (content x); reflexivity.
  - intros [|l ls]; [constructor|]. constructor; [discriminate|]. apply Forall_app. split; [|repeat constructor; discriminate].
    apply Forall_forall. intros w H. apply in_map_iff in H as [x [<- _]]. discriminate.
  - intros [|l ls] t; [reflexivity|]. unfold java_block_comment. rewrite (block_rows_stream (l :: ls) (t |> push |> st $"/**")).
    cbn [fold_left]. f_equal.
Qed.
Print Assumptions C49_java.

(** No line: the stream is unchanged. *)
Theorem C49_empty :
  (forall t, dart_doc_comment [] t = t) /\ (forall t, cs_comment [] t = t) /\
  (forall t, cs_block_comment [] t = t) /\ (forall t, java_block_comment [] t = t).
Proof. repeat split. Qed.
Print Assumptions C49_empty.

Definition demo_before : list act := [TText $"class A {"; TIndent].
Definition demo_after : list act := [TPush; TText $"int x;"; TUnindent; TText $"}"].
Example C49_hypotheses : texts_not_empty demo_before /\ texts_not_empty demo_after /\ next_starts_line demo_after.
Proof.
  split; [|split].
  - intros s [E|[E|[]]]; inversion E; discriminate.
  - intros s [E|[E|[E|[E|[]]]]]; inversion E; discriminate.
  - intros ws s h' E H. destruct ws as [|a [|b ws]]; inversion E; subst; cbn; auto.
    exfalso. apply (H $"int x;"). right. left. auto.
Qed.
Example C49_java_example :
  let ls := [Box $"First."; Static []; Static $"Last."] in
  to_string java_lang (run (map act_call demo_after) (java_block_comment ls (build (map act_call demo_before)))) =
  Some (stack [10%N] [$"class A {"; $"    /**"; $"     * First."; $"     *"; $"     * Last."; $"     */"; $"    int x;"; $"}"]).
Proof. vm_compute. reflexivity. Qed.
Example C49_dart_example :
  let ls := [Box $"First."; Static []; Static $"Last."] in
  to_string dart_lang (run (map act_call demo_after) (dart_doc_comment ls (build (map act_call demo_before)))) =
  Some (stack [10%N] [$"class A {"; $"    /// First."; $"    ///"; $"    /// Last."; $"    int x;"; $"}"]).
Proof. vm_compute. reflexivity. Qed.

(** A supplied "line" that contains a line break is not kept inside the comment. *)
Theorem C49_newline_refuted :
  to_string csharp_lang (cs_comment [Box ($"a" ++ [10%N] ++ $"b")] new) = Some (stack [10%N] [$"// a"; $"b"]).
Proof. vm_compute. reflexivity. Qed.
Print Assumptions C49_newline_refuted.
(** The helpers do not end their last line: a text that follows directly becomes
    part of the comment. *)
Theorem C49_next_refuted :
  to_string csharp_lang (append (VStr $"x();") (cs_comment [Box $"a"] new)) = Some $"// ax();".
Proof. vm_compute. reflexivity. Qed.
Print Assumptions C49_next_refuted.
