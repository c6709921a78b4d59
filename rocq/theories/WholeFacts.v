(** * Facts about the files of quoted programs. *)
From Verif Require Import Str SpecStr StrFacts Quote SpecLex LexFacts QuoteFacts Tokens SpecTokens TokensRun Values Fmt SpecFmt SpecFile RenderFacts StringFacts
  LayoutFacts OutputFacts Macro SpecMacro MacroFacts MacroSem MacroTokens MacroRender SpecWords WordsFacts Parse SpecParse ParseFacts SpecReread RereadFacts RespaceFacts
  RoundsFacts LangBase SpecProgram ProgramFacts FileFacts PropsQuote PropsParse PropsWords PropsReread PropsProgram SpecWhole.

Section Show.
Context {LI E C F : Type} (L : lang_def LI C F) (cfg : config) (c : C) (f : F).
Notation ops := (ld_ops L c f).
Hypothesis OQ : l_open_quote ops false = [[34%N]].
Hypothesis CQ : l_close_quote ops false = [[34%N]].
Definition ref_text (i : LI) : str := concat (l_format_item ops i).

Lemma source_shows l : forall (ts : list (cursor * leaf LI E)) e e', is_source ts e l e' ->
  Forall (fun x => fst (snd x) <> []) l ->
  Forall (fun i => visible_ends (texts (l_format_item ops i))) (imports l) ->
  map fst ts = map fst l /\ leaves_imports ts e = (imports l, e') /\
  exists ds, all_show ops cfg (map snd ts) e ds e' /\ Forall (inline ops cfg) ds /\
    map (string_of ops cfg) ds = map (fun x => in_file (written_literal ops) ref_text (snd x)) l /\ Forall (begins ops) ds.
Proof.
  induction l as [|[c' [w b]] l IH]; intros [|[c0 x] ts] e e' P W V; try contradiction P.
  - split; [reflexivity|]. split; [cbn in *; subst; reflexivity|]. exists []. split; [exact P|]. split; [constructor|]. split; [reflexivity|constructor].
  - cbn [is_source] in P. destruct P as [-> P]. inversion W as [|? ? W1 W2]; subst. cbn [fst snd] in W1.
    assert (X : exists e1 d, is_source ts e1 l e' /\ Forall (fun i => visible_ends (texts (l_format_item ops i))) (imports l) /\
      leaf_imports x e = (match b with Imported i => [i] | _ => [] end, e1) /\
      shows ops cfg x e d e1 /\ inline ops cfg d /\ string_of ops cfg d = in_file (written_literal ops) ref_text (w, b) /\ begins ops d).
    { destruct b as [|v|v|i].
      - destruct P as [-> P]. exists e, [NItem (Literal (Static w))]. destruct (text_string ops cfg w) as [I1 I2].
        repeat (split; [solve [exact P|exact V|reflexivity|apply text_shows; exact W1|exact I1|exact I2]|]). eexists _, _. split; [reflexivity|exact W1].
      - destruct P as [-> P]. exists e, (literal_doc v). pose proof (literal_string ops cfg v OQ CQ) as AT. pose proof (texts_inline _ _ _ _ AT) as [I1 I2].
        split; [exact P|]. split; [exact V|]. split; [reflexivity|]. split; [apply literal_shows; assumption|]. split; [exact I1|].
        split; [|eexists _, _; split; [reflexivity|exact I]]. rewrite I2. unfold in_file, written_literal. cbn. rewrite concat_app. cbn. reflexivity.
      - destruct P as (NE & code & e1 & -> & CE & P). exists e1, [NItem (Literal (Box v))].
        split; [exact P|]. split; [exact V|].
        split; [unfold leaf_imports, quote_mean, block_mean, block_mean_with;
          cbn [fold_left mean start_of enter_chunks enter m_place m_env m_chunks put_items fst snd]; rewrite CE; reflexivity|].
        split; [apply C69_string; assumption|].
        assert (AT : doc_atoms ops cfg [NItem (Literal (Box v))] = texts [v]) by reflexivity.
        destruct (texts_inline ops cfg _ _ AT) as [I1 R1]. split; [exact I1|]. split; [rewrite R1; cbn; apply app_nil_r|].
        eexists _, _. split; [reflexivity|exact NE].
      - destruct P as (code & e1 & -> & CE & P). exists e1, [NItem (Lang 0 i)]. 
        change (imports ((c', (w, Imported i)) :: l)) with (i :: imports l) in V. inversion V as [|? ? V1 V2]; subst.
        split; [exact P|]. split; [exact V2|].
        split; [unfold leaf_imports, quote_mean, block_mean, block_mean_with;
          cbn [fold_left mean start_of enter_chunks enter m_place m_env m_chunks put_items fst snd]; rewrite CE; reflexivity|].
        split; [apply C69_reference; assumption|].
        assert (AT : doc_atoms ops cfg [NItem (Lang 0 i)] = texts (l_format_item ops i)) by (unfold doc_atoms; cbn; rewrite app_nil_r; reflexivity).
        destruct (texts_inline ops cfg _ _ AT) as [I1 R1]. split; [exact I1|]. split; [rewrite R1; reflexivity|].
        eexists _, _. split; [reflexivity|]. cbn. destruct V1 as [(a & l' & T & VA) _]. destruct (l_format_item ops i) as [|s ss]; [discriminate T|].
        injection T as <- _. destruct s; [discriminate VA|discriminate]. }
    destruct X as (e1 & d & P1 & V2 & LI1 & SH & I1 & R1 & B1). destruct (IH ts e1 e' P1 W2 V2) as (M & LI2 & ds & A & I2 & R & B).
    split; [cbn; rewrite M; reflexivity|]. split; [cbn [leaves_imports]; rewrite LI1, LI2; reflexivity|].
    exists (d :: ds). split; [cbn; eauto|]. split; [constructor; auto|]. split; [cbn [map snd]; rewrite R, R1; reflexivity|constructor; auto].
Qed.

Lemma written_words p s (l : list (cursor * str)) : written p s l -> Forall (fun x => snd x <> []) l.
Proof. induction 1; auto. Qed.

(** The stream of a quoted program. *)
Lemma source_body (qs : list (quoted_item LI E)) e p s l e' :
  all_white (c_newline cfg) -> c_newline cfg <> [] -> quotes qs e p s l e' ->
  Forall (fun i => visible_ends (texts (l_format_item ops i))) (imports l) ->
  exists t cs body, quote qs e = Some (e', t) /\ t = build cs /\ uses t = imports l /\
    body_of L cfg c f t body /\ is_code (written_literal ops) ref_text l s body.
Proof.
  intros WH NN (W & P & FIT) V.
  assert (NE : Forall (fun x : cursor * (str * bit LI) => fst (snd x) <> []) l).
  { apply written_words in W. rewrite Forall_forall in *. intros x H. apply (W (fst x, fst (snd x))). apply in_map_iff. eauto. }
  destruct (source_shows l _ _ _ P NE V) as (M & IM & ds & A & I2 & R & B).
  assert (CM : combine (map fst l) (map (fun x => fst (snd x)) l) = map (fun x => (fst x, fst (snd x))) l).
  { clear. induction l as [|x l IH]; [reflexivity|]. cbn. rewrite IH. reflexivity. }
  assert (LEN : length (all_tokens qs) = length l) by (rewrite <- (map_length fst (all_tokens qs)), M; apply map_length).
  destruct (quote_respaces_clean ops cfg WH NN qs p s (map (fun x => fst (snd x)) l) e ds e') as (t & out & b & s1 & Q & OUT & -> & B1 & RS & CS).
  - rewrite M, CM. exact W.
  - rewrite map_length. symmetry. exact LEN.
  - rewrite M. exact FIT.
  - exact A.
  - exact I2.
  - destruct (quote_runs qs e e' t Q) as (its & QM & TE & _). assert (TB : t = build [CExtend its]) by (rewrite TE; reflexivity).
    exists t, [CExtend its], out. split; [exact Q|]. split; [exact TB|].
    split; [rewrite (quote_imports _ _ _ _ Q), IM; reflexivity|]. split.
    + split; [exact OUT|]. intros NO. apply CS. destruct ds as [|d ds]; [|inversion B; assumption].
      exfalso. apply NO. destruct l as [|y l]; [|discriminate R]. destruct (all_tokens qs) as [|y ts] eqn:AT; [|discriminate LEN].
      cbn in A. subst e'. destruct (words_render ops cfg qs 0 [] [] e e) as (t' & Q' & O & _); [exact AT|intros ? ? ? X; destruct before; discriminate|split; [reflexivity|split; reflexivity]|].
      rewrite Q in Q'. injection Q' as <-. rewrite OUT in O. injection O as ->. reflexivity.
    + exists b, s1. split; [reflexivity|]. split; [exact B1|]. rewrite R in RS.
      replace (map (fun x => (fst (snd x), in_file (written_literal ops) ref_text (snd x))) l)
          with (combine (map (fun x => fst (snd x)) l) (map (fun x => in_file (written_literal ops) ref_text (snd x)) l)); [exact RS|].
      clear. induction l as [|x l IH]; [reflexivity|]. cbn. rewrite IH. reflexivity.
Qed.
End Show.
