(** * Properties of the tokens of assembled Rust files (C88).

    A Rust program is quoted with other quoted code in it: values, imports, string
    literals, quoted streams, conditions, matches and loops with separators.  The file
    consists of the tokens of a use declaration for each module that is needed and of
    the tokens of the parts in order: layout, levels and line ends do not change them.

    Vocabulary: [SpecParts.v], and as for C84 and C87. *)
From Verif Require Import Str SpecStr StrFacts Quote SpecLex LexFacts QuoteFacts Tokens SpecTokens TokensRun Values Fmt SpecFmt RenderFacts StringFacts
  SpecLang LangBase FileFacts ImportFacts JavaFacts Macro SpecMacro SpecWords SpecReread RespaceFacts RereadFacts SpecFile Parse SpecParse PropsQuote PropsReread PropsLang PropsNames PropsResolve PropsClash PropsExact SpecWhole WholeFacts PropsWhole
  LangRust SpecRust RustFacts SpecProgram ProgramFacts UseFacts PropsProgram SpecAssembled AssembledFacts PropsAssembled SpecParts PartsFacts.

Theorem C88_rust_file : forall E mode cfg (qs : list (quoted_item rust_import E)) e l e' reference K,
  all_white (c_newline cfg) -> c_newline cfg <> [] ->
  quotes_program qs e l e' ->
  (forall i, In i (program_imports l) -> rust_names_ok i /\ rust_reference mode i (reference i)) ->
  parts_read rust_grammar valid itself (program_parts reference l) K ->
  exists t mods uses file,
    quote qs e = Some (e', t) /\
    file_renders rust_lang cfg mode t file /\
    read_code rust_grammar file = Some (concat uses ++ K) /\
    Forall2 use_tokens mods uses /\ sorted name_before (map fst mods) /\
    (forall m leaves, In (m, leaves) mods -> leaves <> [] /\ sorted (rust_leaf_before name_before) leaves) /\
    (forall m x, (exists leaves, In (m, leaves) mods /\ In x leaves) <->
       exists i, In i (program_imports l) /\ rust_asks mode i m x) /\
    forall i, In i (program_imports l) ->
      (rust_denotes (rust_entries mods) (reference i) (rust_object i) <->
       (forall j m x q j' m' x' q', In j (program_imports l) -> In j' (program_imports l) ->
          rust_asks mode j m x -> rust_binds (m, x) (rust_root (reference i)) q ->
          rust_asks mode j' m' x' -> rust_binds (m', x') (rust_root (reference i)) q' -> (m, x) = (m', x')) /\
       (forall j m x q, In j (program_imports l) -> rust_asks mode j m x -> rust_binds (m, x) (rust_root (reference i)) q ->
          rust_object i = q ++ rust_rest (reference i))).
Proof.
  intros E mode cfg qs e l e' reference K W N Q V R.
  assert (NO : Forall rust_names_ok (program_imports l)) by (apply Forall_forall; intros i Hi; apply V; exact Hi).
  destruct (C87_rust_file E mode cfg qs e l e' Q NO) as (t & literal & mods & reference' & Q' & LIT & S & LE & IA & FI & RE).
  assert (RR : forall i, In i (program_imports l) -> reference' i = reference i).
  { intros i Hi. destruct (RE i Hi) as [RN _]. pose proof (only_renders rust_lang cfg mode tt i) as RO. unfold renders in RN, RO. rewrite RN in RO. injection RO as RO.
    rewrite RO. apply rust_reference_text. apply V. exact Hi. }
  assert (LO : Forall line_ok mods).
  { rewrite Forall_forall in NO |- *. intros [m leaves] H. destruct (LE m leaves H) as [NE _].
    assert (X : forall x, In x leaves -> (exists segs, rust_path (content m) segs) /\ leaf_ok x).
    { intros x Hx. destruct (proj1 (IA m x)) as (i & Hi & AS); [eauto|]. destruct (NO i Hi) as (N1 & N2 & N3). unfold rust_asks in AS.
      destruct (ru_module i) as [md m'|m' a].
      - destruct AS as [-> AS]. split; [exact N3|]. destruct (rust_effective mode md); [subst x; split; assumption|destruct AS as [-> _]; exact I].
      - destruct AS as [-> ->]. split; apply N3. }
    split; [destruct leaves as [|x leaves]; [congruence|]; apply (X x); left; reflexivity|]. apply Forall_forall. intros x Hx. apply (X x Hx). }
  set (body := program_text (c_newline cfg) (c_indentation cfg) literal reference 0 l).
  assert (B : program_text (c_newline cfg) (c_indentation cfg) literal reference' 0 l = body) by (apply program_agree; auto).
  unfold is_file in FI. rewrite B in FI.
  assert (LQ : forall v, exists r, literal v = 34%N :: r).
  { assert (X : forall v, written_literal (ld_ops rust_lang mode tt) v = literal v) by (apply (literal_unique rust_lang); [lit_ok|exact LIT]).
    intros v. rewrite <- X. eexists. reflexivity. }
  assert (LR : forall v rest, valid v -> read_literal rg (literal v ++ rest) = Some (v, rest)).
  { assert (X : forall v, written_literal (ld_ops rust_lang mode tt) v = literal v) by (apply (literal_unique rust_lang); [lit_ok|exact LIT]).
    intros v rest VV. rewrite <- X. revert rest. destruct (C22_rust_round_trip v VV) as (src & SS & D).
    rewrite (literal_source rust_lang _ v eq_refl eq_refl (fun s => eq_refl)) in SS. injection SS as <-. rewrite <- concat_map_flat in D. exact D. }
  destruct (spread_read literal LQ rust_grammar valid itself (fun _ _ _ => eq_refl) LR _ K R _ (spread_program literal (c_newline cfg) (c_indentation cfg) reference W N 0 l)) as (L & C & M).
  destruct (file_consists (c_newline cfg) mods body L W N LO C) as (uses & L' & U & C' & ML).
  exists t, mods, uses, (file_text (c_newline cfg) (map rust_use_line mods) body).
  split; [exact Q'|]. split; [exact FI|]. split; [rewrite (consists_code _ _ _ C'), ML, M; reflexivity|].
  split; [exact U|]. split; [exact S|]. split; [exact LE|]. split; [exact IA|].
  intros i Hi. rewrite <- (RR i Hi). apply (RE i Hi).
Qed.
Print Assumptions C88_rust_file.

(** ** An example *)
Section Example88.
Let debug := rust_qualified (rust_new (Static $"std::fmt") (Static $"Debug")).
Let read := rust_new (Static $"std::io") (Static $"Read").
Notation entry := (str * str * (piece rust_import * (cursor -> quoted_item rust_import nat)))%type.
Definition p_at : pos := mk_pos 1 0.
Definition p_call : tokens rust_import := match quote (laid_quote p_at (l_call debug read)) 7 with Some (_, t) => t | None => new end.
(** [fn g() {
       let x$n = $call;
     }], where [call] is the quoted [f($(for _ in 0..2 join (, ) => $debug), ...)] *)
Definition p_words : list entry :=
  [word_ [] $"fn"; word_ $" " $"g"; word_ [] $"("; word_ [] $")"; word_ $" " $"{";
   word_ ([10%N] ++ $"  ") $"let"; word_ $" " $"x"; value_ [] $"$n" (TextOf $"5") (fun e => (VInt 5, e)); word_ $"  " $"=";
   value_ $" " $"$call" (Fragment (laid_program p_at (l_call debug read))) (fun e => (VTokens p_call, S e)); word_ [] $";";
   word_ [10%N] $"}"].
Definition p_program : program rust_import := laid_program (mk_pos 4 0) p_words.
Definition p_reference (i : rust_import) : str := if str_eqb (content (ru_name i)) $"Debug" then $"fmt::Debug" else $"Read".
Definition p_tokens : list token :=
  [WName $"fn"; WName $"g"; WOpen Parenthesis; WClose Parenthesis; WOpen Brace;
   WName $"let"; WName $"x5"; WPunct 61 false;
   WName $"f"; WOpen Parenthesis] ++ WName $"fmt" :: colons ++ [WName $"Debug"; WPunct 44 false] ++ WName $"fmt" :: colons ++ [WName $"Debug"; WPunct 44 false;
   WName $"Read"; WPunct 44 false; WString $"q"; WClose Parenthesis; WPunct 59 false;
   WClose Brace].
Example C88_source : laid_text p_words = $"fn g() {
  let x$n  = $call;
}" /\ parts_line (program_parts p_reference p_program) = $"fn g() { let x5 = f(fmt::Debug, fmt::Debug, Read, """"); }".
Proof. split; vm_compute; reflexivity. Qed.
Ltac fit := repeat match goal with E0 : _ :: _ = ?before ++ _ :: _ |- _ => destruct before as [|? before]; [injection E0 as <- _|injection E0 as <- E0] end; try congruence.
Ltac over_here := match goal with
  | |- reads_over _ ?v ?r (?k :: ?K) =>
      let o := eval vm_compute in (read_token rust_grammar (v ++ r)) in
      match o with Some (k, ?t) =>
        let n := eval vm_compute in (length v + length r - length t) in
        let w := eval vm_compute in (firstn n v) in let v' := eval vm_compute in (skipn n v) in
        apply (over_token _ w v' r k K); [discriminate|vm_compute; reflexivity|] end
  | |- reads_over _ [] _ [] => apply over_end
  end.
Ltac chars n := match goal with |- parts_read _ _ _ (Chars _ :: _) ?K =>
  let a := eval vm_compute in (firstn n K) in let b := eval vm_compute in (skipn n K) in
  change K with (a ++ b); apply read_chars; [solve [repeat over_here]|] end.
Example C88_hypotheses :
  quotes_program (laid_quote (mk_pos 4 0) p_words) 0 p_program 1 /\
  (forall i, In i (program_imports p_program) -> rust_names_ok i /\ rust_reference Direct i (p_reference i)) /\
  parts_read rust_grammar valid itself (program_parts p_reference p_program) p_tokens.
Proof.
  split; [|split].
  - assert (L : line_starts (map fst p_program) = [0; 2; 0]) by (vm_compute; reflexivity).
    apply laid_quotes; [repeat constructor; discriminate| | |apply flat_fit; vm_compute; reflexivity].
    + intros before c after E0 N. fold p_program in E0. rewrite L in E0. clear L. fit.
      * left. cbn. lia.
      * right. exists [], [2]. split; [reflexivity|repeat constructor; lia].
      * destruct before; discriminate.
    + do 7 (eapply all_stand_next; [constructor|]). eapply all_stand_next; [eapply stands_text; [reflexivity|reflexivity|discriminate]|].
      eapply all_stand_next; [constructor|].
      eapply all_stand_next.
      { eapply (stands_stream _ _ _ (laid_quote p_at (l_call debug read)) 7 3); [reflexivity| |apply C87_line_hypotheses|discriminate]. vm_compute. reflexivity. }
      do 2 (eapply all_stand_next; [constructor|]). apply all_stand_end.
  - assert (X : forall i, In i (program_imports p_program) -> i = debug \/ i = read).
    { intros i H. change (program_imports p_program) with [debug; debug; read] in H. destruct H as [<-|[<-|[<-|[]]]]; auto. }
    intros i H. destruct (X i H) as [->| ->].
    + split; [split; [split; reflexivity|]; split; [exact I|]; exists [$"std"; $"fmt"]; split; [discriminate|]; split; [repeat constructor|reflexivity]|].
      exists [$"std"], $"fmt". split; [split; [discriminate|]; split; [repeat constructor|reflexivity]|reflexivity].
    + split; [split; [split; reflexivity|]; split; [exact I|]; exists [$"std"; $"io"]; split; [discriminate|]; split; [repeat constructor|reflexivity]|].
      reflexivity.
  - let x := eval vm_compute in (program_parts p_reference p_program) in change (program_parts p_reference p_program) with x.
    let x := eval vm_compute in p_tokens in change p_tokens with x.
    repeat first [apply read_gap | apply read_end | chars 1 | apply read_joined; chars 1 | chars 4 | apply (read_string rust_grammar valid itself); [repeat constructor|] | chars 0].
Qed.
Example C88_file :
  option_map (fun '(_, t) => outcome (format_file rust_lang string_writer ex_cfg t Direct (formatter_new []))) (quote (laid_quote (mk_pos 4 0) p_words) 0) = Some ($"use std::fmt;
use std::io::Read;

fn g() {
    let x5 = f(fmt::Debug, fmt::Debug, Read, ""q"");
}
", true) /\
  read_code rust_grammar $"use std::fmt;
use std::io::Read;

fn g() {
    let x5 = f(fmt::Debug, fmt::Debug, Read, ""q"");
}
" = Some ((WName $"use" :: path_tokens [$"std"; $"fmt"] ++ [WPunct 59 false]) ++
          (WName $"use" :: path_tokens [$"std"; $"io"; $"Read"] ++ [WPunct 59 false]) ++ p_tokens).
Proof. split; vm_compute; reflexivity. Qed.
End Example88.
