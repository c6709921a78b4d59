(** * Properties of the blocks of assembled Python programs (C91).

    Python groups the lines of a file by their indentation.  For a program that is
    assembled from quotes the groups are those of the sources of the quotes, each read
    like a Python file, with quoted code read where it stands.

    Vocabulary: [SpecOutline.v] and [SpecOffside.v], and as for C87. *)
From Coq Require Import Lia.
From Verif Require Import Str SpecStr StrFacts Tokens SpecTokens TokensRun Values Fmt SpecFmt RenderFacts StringFacts
  SpecLang SpecResolve LangBase LangPython SpecPython PythonFacts Macro SpecMacro SpecWords SpecReread SpecFile SpecWhole SpecProgram SpecAssembled AssembledFacts
  SpecOffside OffsideFacts PropsOffside SpecOutline OutlineFacts OutlineFits PropsAssembled.

(** The import statements come first, none of them in a block. *)
Theorem C91_file : forall E cfg (qs : list (quoted_item py_import E)) e l e',
  indents (c_indentation cfg) -> line_end (c_newline cfg) ->
  quotes_program qs e l e' -> l <> [] ->
  Forall python_words (program_imports l) -> Forall py_one_line (program_imports l) ->
  exists t literal froms modules reference es out,
    quote qs e = Some (e', t) /\ literal_of python_lang literal /\ python_listed (program_imports l) froms modules /\
    (forall i, In i (program_imports l) -> renders python_lang cfg tt tt (only i) (reference i)) /\
    program_blocks literal reference l = Some es /\ file_renders python_lang cfg tt t out /\
    (Forall proper_event es ->
     python out = Some (map Statement (map py_from_line froms ++ map py_import_line modules) ++ es)).
Proof.
  intros E cfg qs e l e' I NL Q N V OL.
  destruct (C87_python_file E cfg qs e l e' Q V) as (t & literal & froms & modules & reference & Q' & LO & LI & FI & R).
  destruct (program_has_blocks literal reference qs e l e' Q N) as ((es & B) & SO).
  exists t, literal, froms, modules, reference, es. eexists. split; [exact Q'|]. split; [exact LO|]. split; [exact LI|]. split; [intros i Hi; apply (R i Hi)|].
  split; [exact B|]. split; [exact FI|]. intros P.
  destruct (outline_lines (c_newline cfg) _ I literal reference l es SO B P) as (ls & NE & T & U & PY). rewrite T.
  destruct LI as (_ & H1 & H2 & _ & H3). rewrite Forall_forall in OL.
  apply python_file; auto.
  - apply Forall_app. split.
    + apply Forall_map, Forall_forall. intros [m names] I0. destruct (H1 m names I0) as [NN _].
      assert (K : forall k, In k names -> one_line m /\ one_line (fst k) /\ opt_one_line (snd k)).
      { intros [n a] I1. assert (X : In (PyImport (Unqualified m) n a) (program_imports l)) by (apply H2; exists names; auto). apply OL in X. exact X. }
      apply plain_from; cbn [fst snd].
      * destruct names as [|k names]; [congruence|]. exact (proj1 (K k (or_introl eq_refl))).
      * apply Forall_forall. intros k I1. exact (proj2 (K k I1)).
    + apply Forall_map, Forall_forall. intros [m a] I0. apply H3 in I0 as [(n & al & I0)|I0]; apply OL in I0; destruct I0; apply plain_import; auto.
  - intros J. destruct ls as [|x [|y ls]]; [congruence| |].
    + cbn [join] in J. subst x. change (python_lines [[]]) with (Some (@nil event)) in PY. injection PY as <-.
      unfold program_blocks in B. destruct (words_marks _) as [[m o]|]; [|discriminate]. injection B as B. apply app_eq_nil in B as [B _].
      clear -B. revert B. generalize (@nil N). generalize 0. induction m as [|[s| |ev|] m IH]; intros k a B; cbn in B; try discriminate; apply (IH _ _ B).
    + change (join (c_newline cfg) (x :: y :: ls)) with (x ++ c_newline cfg ++ join (c_newline cfg) (y :: ls)) in J. apply app_eq_nil in J as [_ J]. apply app_eq_nil in J as [J _].
      destruct NL as [H|[H|H]]; rewrite H in J; discriminate.
Qed.
Print Assumptions C91_file.

Section Example.
Notation entry := (str * str * (piece py_import * (cursor -> quoted_item py_import nat)))%type.
Let sqrt := PyImport (Unqualified (Static $"math")) (Static $"sqrt") None.
(** [if $sqrt(x):
         y = 1
     else:
         y = 2], which ends one level deeper *)
Definition o_inner : list entry :=
  [word_ [] $"if"; value_ $" " $"$sqrt" (ReferenceTo sqrt) (fun e => (VLang sqrt, e)); word_ [] $"("; word_ [] $"x"; word_ [] $")"; word_ [] $":";
   word_ ([10%N] ++ $"            ") $"y"; word_ $" " $"="; word_ $" " $"1";
   word_ ([10%N] ++ $"        ") $"else"; word_ [] $":";
   word_ ([10%N] ++ $"            ") $"y"; word_ $" " $"="; word_ $" " $"2"].
Definition o_at : pos := mk_pos 20 8.
Definition o_stream : tokens py_import := match quote (laid_quote o_at o_inner) 0 with Some (_, t) => t | None => new end.
(** [while z > $n:
         z -= 1], round [n], which ends one level deeper *)
Definition o_round (n : nat) : list entry :=
  [word_ [] $"while"; word_ $" " $"z"; word_ $" " $">"; value_ $" " $"$n" (TextOf (dec_z (Z.of_nat n))) (fun e => (VInt (Z.of_nat e), e)); word_ [] $":";
   word_ ([10%N] ++ $"         ") $"z"; word_ $" " $"-="; word_ $" " $"1"].
Definition o_body : pos := mk_pos 6 8.
(** [def f(x):
       for z in x:
           $code

           $(for n in 0..2 join ($['\n']) =>
             while z > $n:
              z -= 1)
       return y] *)
Definition o_main : list entry :=
  [word_ [] $"def"; word_ $" " $"f"; word_ [] $"("; word_ [] $"x"; word_ [] $")"; word_ [] $":";
   word_ ([10%N] ++ $"  ") $"for"; word_ $" " $"z"; word_ $" " $"in"; word_ $" " $"x"; word_ [] $":";
   value_ ([10%N] ++ $"      ") $"$code" (Fragment (laid_program o_at o_inner)) (fun e => (VTokens o_stream, e));
   ([10; 10]%N ++ $"      ", $"$(for n in 0..2 join ($['\n']) =>
        while z > $n:
         z -= 1)",
     (Rounds (mk_separator false [] (Some KLine)) [laid_program o_body (o_round 0); laid_program o_body (o_round 1)],
      fun c => QLoop c (fun e => (PropsRounds.each 2, e)) (Some (mk_cursor (mk_pos 5 27) (mk_pos 5 36), [QControl (mk_cursor (mk_pos 5 28) (mk_pos 5 35)) KLine])) (laid_quote o_body (o_round 0))));
   word_ ([10%N] ++ $"  ") $"return"; word_ $" " $"y"].
Ltac fit := repeat match goal with E0 : _ :: _ = ?before ++ _ :: _ |- _ => destruct before as [|? before]; [injection E0 as <- _|injection E0 as <- E0] end; try congruence.
Lemma o_round_quotes n : n < 2 -> quotes_program (laid_quote o_body (o_round 0)) n (laid_program o_body (o_round n)) n /\ program_depth (laid_program o_body (o_round n)) = 1.
Proof.
  intros H. assert (SQ : laid_quote o_body (o_round 0) = laid_quote o_body (o_round n)) by reflexivity. rewrite SQ. clear SQ.
  assert (L : line_starts (map fst (laid_program o_body (o_round n))) = [8; 9]) by reflexivity.
  split; [|vm_compute; reflexivity].
  apply laid_quotes; [repeat constructor; discriminate| | |apply flat_fit; vm_compute; reflexivity].
  - intros before c after E0 N. rewrite L in E0. clear L. fit.
    + left. cbn. lia.
    + destruct before; discriminate.
  - repeat (eapply all_stand_next; [solve [constructor|
      eapply stands_text; [reflexivity|reflexivity|destruct n as [|[|n]]; [discriminate|discriminate|lia]]]|]). apply all_stand_end.
Qed.
Lemma o_inner_quotes : quotes_program (laid_quote o_at o_inner) 0 (laid_program o_at o_inner) 0 /\ program_depth (laid_program o_at o_inner) = 1.
Proof.
  assert (L : line_starts (map fst (laid_program o_at o_inner)) = [8; 12; 8; 12]) by (vm_compute; reflexivity).
  split; [|vm_compute; reflexivity].
  apply laid_quotes; [repeat constructor; discriminate| | |apply flat_fit; vm_compute; reflexivity].
  - intros before c after E0 N. rewrite L in E0. clear L. fit.
    + left. cbn. lia.
    + right. exists [], [12]. split; [reflexivity|repeat constructor; lia].
    + left. cbn. lia.
    + destruct before; discriminate.
  - repeat (eapply all_stand_next; [solve [constructor|eapply stands_import; reflexivity]|]). apply all_stand_end.
Qed.
Example C91_source : laid_text o_main = $"def f(x):
  for z in x:
      $code

      $(for n in 0..2 join ($['\n']) =>
        while z > $n:
         z -= 1)
  return y".
Proof. vm_compute. reflexivity. Qed.
Example C91_hypotheses : let l := laid_program (mk_pos 1 0) o_main in
  quotes_program (laid_quote (mk_pos 1 0) o_main) 7 l 1 /\ l <> [] /\ Forall python_words (program_imports l) /\ Forall py_one_line (program_imports l).
Proof.
  cbv zeta. split; [|split; [discriminate|]].
  - assert (L : line_starts (map fst (laid_program (mk_pos 1 0) o_main)) = [0; 2; 6; 6; 2]) by (vm_compute; reflexivity).
    apply laid_quotes; [repeat constructor; discriminate| | |vm_compute; repeat split; first [left; reflexivity|right; lia|exact Logic.I]].
    + intros before c after E0 N. rewrite L in E0. clear L. fit.
      * left. cbn. lia.
      * left. cbn. lia.
      * left. cbn. lia.
      * right. exists [0], [6; 6]. split; [reflexivity|repeat constructor; lia].
      * destruct before; discriminate.
    + do 11 (eapply all_stand_next; [constructor|]).
      eapply all_stand_next.
      { eapply stands_stream; [reflexivity| |exact (proj1 o_inner_quotes)|discriminate]. vm_compute. reflexivity. }
      eapply all_stand_next.
      { eapply stands_blocks; [vm_compute; discriminate|reflexivity|apply (breaks_control 5 27 36 KLine); [cbn; lia|discriminate]| |discriminate|constructor; [|constructor; [|constructor]]; [rewrite (proj2 (o_round_quotes 0 ltac:(lia)))|rewrite (proj2 (o_round_quotes 1 ltac:(lia)))]; discriminate].
        eapply quotes_round; [apply (o_round_quotes 0); lia|discriminate|].
        eapply quotes_round; [apply (o_round_quotes 1); lia|discriminate|]. apply quotes_no_rounds. }
      do 2 (eapply all_stand_next; [constructor|]). apply all_stand_end.
  - split.
    + repeat (constructor; try discriminate).
    + constructor; [|constructor]. repeat split; vm_compute; intuition discriminate.
Qed.
Definition o_events : list event :=
  [Statement $"def f(x):"; Indent; Statement $"for z in x:"; Indent; Statement $"if sqrt(x):"; Indent; Statement $"y = 1"; Dedent; Statement $"else:"; Indent; Statement $"y = 2"; Dedent;
   Statement $"while z > 0:"; Indent; Statement $"z -= 1"; Dedent; Statement $"while z > 1:"; Indent; Statement $"z -= 1"; Dedent; Dedent; Statement $"return y"; Dedent].
Example C91_example :
  program_blocks (fun v => v) (fun _ => $"sqrt") (laid_program (mk_pos 1 0) o_main) = Some o_events /\ Forall proper_event o_events /\
  option_map (fun '(_, t) => outcome (format_file python_lang string_writer (mk_config (ISpace 4) [10%N]) t tt (formatter_new []))) (quote (laid_quote (mk_pos 1 0) o_main) 7) =
    Some ($"from math import sqrt

def f(x):
    for z in x:
        if sqrt(x):
            y = 1
        else:
            y = 2

        while z > 0:
            z -= 1

        while z > 1:
            z -= 1
    return y
", true).
Proof.
  split; [vm_compute; reflexivity|]. split; [|vm_compute; reflexivity].
  repeat (constructor; [first [exact Logic.I|split; [eexists _, _; split; [reflexivity|repeat split; discriminate]|split; vm_compute; intuition discriminate]]|]). constructor.
Qed.
End Example.
