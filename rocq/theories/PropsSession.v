(** * Properties of several outputs through one writer or one formatter (C83).

    Vocabulary: [SpecSession.v]; model: [Fmt.v]. *)
From Verif Require Import Str StrFacts Tokens SpecTokens TokensRun Values Fmt SpecFmt FmtFacts RenderFacts WriterFacts
  OutputFacts SpecFile SpecLang SpecResolve LangBase LangPython PropsLang PropsNames SpecSession.

Lemma run_job_sim {W} (wr : writer W) cfg j : sim_fun wr cfg (run_job trace_writer cfg j) (run_job wr cfg j).
Proof. destruct j as [LI C F L c f t|LI C F L c t]; [apply format_items_sim|apply format_file_sim]. Qed.
Lemma run_jobs_and {W} (wr : writer W) cfg j js st :
  run_jobs wr cfg (j :: js) st = and_then (run_job wr cfg j st) (run_jobs wr cfg js).
Proof. reflexivity. Qed.
Lemma run_jobs_sim {W} (wr : writer W) cfg js : sim_fun wr cfg (run_jobs trace_writer cfg js) (run_jobs wr cfg js).
Proof.
  induction js as [|j js IH]; [apply ret_sim|]. intros stt w. rewrite !run_jobs_and.
  apply and_then_sim; auto. apply run_job_sim.
Qed.

(** All writers at once: the calls jobs make on a fresh formatter, and whether
    they succeed on a writer that does not fail. *)
Lemma jobs_trace cfg js : exists tr ok, forall W (wr : writer W) w,
  match replay wr cfg tr w with
  | (w', true) => outcome (run_jobs wr cfg js (formatter_new w)) = (w', ok)
  | (w', false) => outcome (run_jobs wr cfg js (formatter_new w)) = (w', false)
  end.
Proof.
  destruct (run_jobs trace_writer cfg js (formatter_new [])) as [stt ok] eqn:E.
  exists (f_write stt), ok. intros W wr w.
  pose proof (run_jobs_sim wr cfg js (formatter_new []) w) as [tr [S1 S2]].
  rewrite E in S1, S2. cbn [fst snd f_write formatter_new app] in S1, S2. subst tr.
  change (put (formatter_new []) w) with (formatter_new w) in S2.
  destruct (replay wr cfg (f_write stt) w) as [w' [|]].
  - rewrite S2. reflexivity.
  - destruct S2 as [S2 S3]. unfold outcome. rewrite S2, S3. reflexivity.
Qed.

(** Strings: every formatter adds what it would write to a string of its own. *)
Theorem C83_string_session : forall s w,
  run_session string_writer s w = (w ++ fst (joined (map separate s)), snd (joined (map separate s))).
Proof.
  induction s as [|[cfg js] s IH]; intros w; cbn [run_session map joined].
  - cbn. rewrite app_nil_r. reflexivity.
  - destruct (jobs_trace cfg js) as (tr & ok & T).
    pose proof (T _ string_writer w) as T1. pose proof (T _ string_writer []) as T2.
    rewrite replay_string in T1, T2. cbn [app] in T2.
    assert (ES : separate (cfg, js) = (text (c_newline cfg) (flat tr), ok)) by exact T2. rewrite T1, ES.
    destruct ok; [|reflexivity]. rewrite IH. cbn [fst snd]. rewrite app_assoc. reflexivity.
Qed.
Print Assumptions C83_string_session.

(** Any other sink that keeps what it accepts. *)
Theorem C83_sink_session : forall W (sink : str -> W -> W * bool) log s w, keeps sink log ->
  let out := joined (map separate s) in
  match run_session (fmt_writer sink) s w with
  | (w', true) => log w' = log w ++ fst out /\ snd out = true
  | (w', false) => exists p q, fst out = p ++ q /\ log w' = log w ++ p
  end.
Proof.
  intros W sink log s w K. cbv zeta.
  assert (R : forall cfg tr w, match replay (fmt_writer sink) cfg tr w with
    | (w', true) => log w' = log w ++ text (c_newline cfg) (flat tr)
    | (w', false) => exists p q, text (c_newline cfg) (flat tr) = p ++ q /\ log w' = log w ++ p
    end).
  { clear w. intros cfg tr. induction tr as [|e tr IH]; intros w; cbn [replay flat flat_map].
    - cbn. rewrite app_nil_r. reflexivity.
    - assert (D : exists x, do_event (fmt_writer sink) cfg e w = sink x w /\ text (c_newline cfg) (flat_event e) = x).
      { destruct e as [x| |]; cbn [do_event fmt_writer w_str w_line w_trailing flat_event];
          eexists; (split; [reflexivity|]); [apply text_chars|apply app_nil_r|apply app_nil_r]. }
      destruct D as (x & -> & EX). rewrite text_app, EX. fold (flat tr). specialize (K x w).
      destruct (sink x w) as [w' [|]].
      + specialize (IH w'). destruct (replay (fmt_writer sink) cfg tr w') as [w2 [|]].
        * rewrite IH, K, app_assoc. reflexivity.
        * destruct IH as (p & q & -> & ->). exists (x ++ p), q. rewrite K, !app_assoc. auto.
      + destruct K as (p & q & -> & ->). exists p, (q ++ text (c_newline cfg) (flat tr)). rewrite app_assoc. auto. }
  revert w. induction s as [|[cfg js] s IH]; intros w; cbn [run_session map joined].
  - cbn. rewrite app_nil_r. auto.
  - destruct (jobs_trace cfg js) as (tr & ok & T).
    pose proof (T _ string_writer []) as T2. rewrite replay_string in T2. cbn [app] in T2.
    assert (ES : separate (cfg, js) = (text (c_newline cfg) (flat tr), ok)) by exact T2. rewrite ES.
    pose proof (T _ (fmt_writer sink) w) as T1.
    specialize (R cfg tr w). destruct (replay (fmt_writer sink) cfg tr w) as [w1 [|]]; rewrite T1.
    + destruct ok; cbn [fst snd].
      * specialize (IH w1). destruct (run_session (fmt_writer sink) s w1) as [w2 [|]].
        -- destruct IH as [-> ->]. rewrite R, app_assoc. auto.
        -- destruct IH as (p & q & -> & ->). exists (text (c_newline cfg) (flat tr) ++ p), q. rewrite R, !app_assoc. auto.
      * eexists _, []. rewrite app_nil_r. split; [reflexivity|exact R].
    + destruct R as (p & q & E & EL). rewrite E. destruct ok; cbn [fst snd].
      * exists p, (q ++ fst (joined (map separate s))). rewrite app_assoc. auto.
      * exists p, q. auto.
Qed.
Print Assumptions C83_sink_session.

(** Bytes. *)
Theorem C83_bytes_session : forall s w,
  let out := joined (map separate s) in
  run_session (io_writer (fun b w => (w ++ b, true))) s w = (w ++ utf8 (fst out), snd out).
Proof.
  intros s w. cbv zeta. revert w. induction s as [|[cfg js] s IH]; intros w; cbn [run_session map joined].
  - cbn. rewrite app_nil_r. reflexivity.
  - destruct (jobs_trace cfg js) as (tr & ok & T).
    pose proof (T _ string_writer []) as T2. rewrite replay_string in T2. cbn [app] in T2.
    assert (ES : separate (cfg, js) = (text (c_newline cfg) (flat tr), ok)) by exact T2. rewrite ES.
    pose proof (T _ (io_writer (fun b w => (w ++ b, true))) w) as T1.
    assert (R : replay (io_writer (fun b w => (w ++ b, true))) cfg tr w =
                (w ++ utf8 (text (c_newline cfg) (flat tr)), true)).
    { clear. revert w. induction tr as [|e tr IH]; intros w; cbn [replay flat flat_map].
      - cbn. rewrite app_nil_r. reflexivity.
      - fold (flat tr). rewrite text_app, utf8_app.
        destruct e; cbn [do_event io_writer w_str w_line w_trailing flat_event]; rewrite IH, <- app_assoc, ?text_chars; [reflexivity|..].
        all: cbn [text flat_map sym_text]; rewrite app_nil_r; reflexivity. }
    rewrite R in T1. rewrite T1. destruct ok; [|reflexivity]. rewrite IH. cbn [fst snd].
    rewrite utf8_app, app_assoc. reflexivity.
Qed.
Print Assumptions C83_bytes_session.

(** Vectors of lines: the last line goes on. *)
Lemma replay_vec_lines cfg tr : exists ls, ls <> [] /\ forall tgt buf, exists v,
  replay vec_writer cfg tr (mk_vec tgt buf) = (v, true) /\ into_vec v = tgt ++ glue buf ls.
Proof.
  induction tr as [|e tr (ls & NE & IH)].
  - exists [[]]. split; [discriminate|]. intros tgt buf. eexists. split; [reflexivity|]. cbn. rewrite app_nil_r. reflexivity.
  - destruct e as [s| |]; cbn [replay do_event vec_writer w_str w_line w_trailing v_target v_buffer].
    + exists (glue s ls). split; [destruct ls; discriminate|]. intros tgt buf.
      destruct (IH tgt (buf ++ s)) as (v & E1 & E2). exists v. split; [exact E1|]. rewrite E2, glue_glue. reflexivity.
    + exists ([] :: ls). split; [discriminate|]. intros tgt buf.
      destruct (IH (tgt ++ [buf]) []) as (v & E1 & E2). exists v. split; [exact E1|].
      rewrite E2, <- app_assoc. cbn [glue app]. rewrite app_nil_r. destruct ls; [congruence|reflexivity].
    + exists ls. split; [exact NE|exact IH].
Qed.
Lemma run_on_glue tgt buf ls : ls <> [] -> tgt ++ glue buf ls = run_on (tgt ++ [buf]) ls.
Proof.
  intros NE. induction tgt as [|x tgt IH]; cbn [app run_on].
  - destruct ls; [congruence|reflexivity].
  - rewrite IH. destruct tgt; reflexivity.
Qed.
Theorem C83_vec_lines : forall p v,
  let v' := fst (outcome (run_jobs vec_writer (fst p) (snd p) (formatter_new v))) in
  into_vec v' = run_on (into_vec v) (separate_lines p).
Proof.
  intros [cfg js] [tgt buf]. unfold separate_lines. cbn [fst snd]. destruct (jobs_trace cfg js) as (tr & ok & T).
  destruct (replay_vec_lines cfg tr) as (ls & NE & R).
  destruct (R tgt buf) as (v1 & E1 & L1). destruct (R [] []) as (v2 & E2 & L2).
  pose proof (T _ vec_writer (mk_vec tgt buf)) as T1. pose proof (T _ vec_writer vec_new) as T2.
  change (replay vec_writer cfg tr vec_new) with (replay vec_writer cfg tr (mk_vec [] [])) in T2.
  rewrite E1 in T1. rewrite E2 in T2. rewrite T1, T2. cbn [fst]. rewrite L1, L2, run_on_glue by auto.
  unfold into_vec. cbn [v_target v_buffer app]. f_equal. destruct ls; [congruence|reflexivity].
Qed.
Print Assumptions C83_vec_lines.

(** One formatter. *)
Lemma after_net l : forall first lvl gap,
  let '(f, v, g) := after first lvl gap l in (v + net g = lvl + net gap + net l)%Z.
Proof.
  induction l as [|a l IH]; intros first lvl gap; cbn [after net]; [lia|].
  destruct (a_text a) eqn:E.
  - specialize (IH first lvl (gap ++ [a])). destruct (after first lvl (gap ++ [a]) l) as [[f v] g].
    rewrite IH, net_snoc. lia.
  - specialize (IH false (lvl + net gap)%Z []). destruct (after false (lvl + net gap) [] l) as [[f v] g].
    rewrite IH. cbn [net]. destruct a; cbn [a_indent] in *; try discriminate. lia.
Qed.

Theorem C83_formatter_jobs : forall cfg js asked, Forall2 (job_asks cfg) js asked ->
  outcome (run_jobs string_writer cfg js (formatter_new [])) =
  (text (c_newline cfg) (jobs_layout (c_indentation cfg) true 0 [] asked), true).
Proof.
  intros cfg js asked H.
  assert (G : forall js asked, Forall2 (job_asks cfg) js asked ->
    forall first lvl since w (st0 : fstate unit) (st : fstate str),
      layout_inv first lvl [] st0 -> run_atoms string_writer cfg since (put st0 w) = (st, true) ->
      outcome (run_jobs string_writer cfg js st) =
      (w ++ text (c_newline cfg) (jobs_layout (c_indentation cfg) first lvl since asked), true)).
  { clear. induction 1 as [|j a js asked J _ IH]; intros first lvl since w st0 st LI RA.
    - cbn [run_jobs jobs_layout outcome fst snd].
      destruct (run_layout_string cfg since w st0 first lvl [] LI) as (st1 & E1 & E2 & _).
      assert (EE : st1 = st) by congruence. subst st1. unfold outcome. cbn [fst snd]. etransitivity; [|exact (f_equal (fun x => (x, true)) E2)]. reflexivity.
    - destruct J as [L C F ld c f t doc EI OK|L C F ld c t docs D].
      + cbn [run_jobs run_job jobs_layout]. unfold format. rewrite EI, format_doc by auto.
        assert (RA' : run_atoms string_writer cfg (since ++ doc_atoms (ld_ops ld c f) cfg doc) (put st0 w) =
                      run_atoms string_writer cfg (doc_atoms (ld_ops ld c f) cfg doc) st).
        { rewrite run_atoms_app, RA. reflexivity. }
        pose proof (run_atoms_ok string_writer cfg ltac:(split; auto) (doc_atoms (ld_ops ld c f) cfg doc) st) as O.
        destruct (run_atoms string_writer cfg (doc_atoms (ld_ops ld c f) cfg doc) st) as [st' ok]. cbn in O. subst ok.
        exact (IH _ _ _ _ st0 st' LI RA').
      + cbn [run_jobs run_job jobs_layout]. unfold format_file.
        set (l := concat _).
        assert (FS : forall st : fstate str, format_streams ld string_writer cfg c (ld_format_file ld t c) st = run_atoms string_writer cfg l st).
        { subst l. clear - D. induction D as [|[t' f] doc ts docs [EI OK] _ IHD]; intros st; [reflexivity|].
          cbn [format_streams combine map concat fst snd]. unfold format. cbn [fst] in EI.
          rewrite EI, format_doc, run_atoms_app by auto.
          destruct (run_atoms string_writer cfg (doc_atoms (ld_ops ld c f) cfg doc) st) as [st' [|]]; cbn [and_then]; auto. }
        rewrite FS. clear FS.
        destruct (run_layout_string cfg (since ++ l) w st0 first lvl [] LI) as (st1 & E1 & E2 & E3).
        rewrite run_atoms_app, RA in E1. cbn [and_then] in E1. rewrite E1.
        cbn [and_then]. unfold write_trailing_line, on_write. cbn [string_writer w_trailing f_write with_write f_line f_spaces f_indent].
        rewrite text_app. cbn [text flat_map sym_text]. fold (text (c_newline cfg)). rewrite !app_assoc, <- E2.
        pose proof (after_net (since ++ l) first lvl []) as AN.
        destruct (after first lvl [] (since ++ l)) as [[f2 v2] g2].
        destruct E3 as (_ & _ & E3). cbn [net] in AN.
        eapply (IH false (lvl + net (since ++ l))%Z [] _ (mk_fstate tt WNone 0 (f_indent st1))).
        * split; [reflexivity|]. split; [reflexivity|]. cbn [f_indent put net]. rewrite E3. lia.
        * reflexivity. }
  exact (G js asked H true 0%Z [] [] (formatter_new tt) _ (new_inv tt) eq_refl).
Qed.
Print Assumptions C83_formatter_jobs.

(** Files on one formatter are as from formatters of their own if every file
    closes its blocks and asks for no line break before its first text. *)
Definition plain_file (l : list atom) : Prop :=
  net l = 0%Z /\
  forall before a rest, l = before ++ a :: rest -> Forall (fun x => visible x = false) before ->
    visible a = true -> existsb a_break before = false.
Lemma layout_first ind l : (forall before a rest, l = before ++ a :: rest -> Forall (fun x => visible x = false) before ->
    visible a = true -> existsb a_break before = false) ->
  layout_from ind false 0 [] l = layout_from ind true 0 [] l.
Proof.
  intros H.
  assert (G : forall l gap, Forall (fun x => visible x = false) gap ->
    (forall before a rest, gap ++ l = before ++ a :: rest -> Forall (fun x => visible x = false) before ->
       visible a = true -> existsb a_break before = false) ->
    layout_from ind false 0 gap l = layout_from ind true 0 gap l).
  { clear. induction l as [|a l IH]; intros gap FG H; cbn [layout_from]; [reflexivity|].
    destruct (a_text a) eqn:E.
    - apply IH.
      + apply Forall_app. split; [exact FG|]. constructor; [|constructor]. unfold visible. rewrite E. reflexivity.
      + rewrite <- app_assoc. exact H.
    - assert (VA : visible a = true) by (unfold visible; rewrite E; reflexivity).
      assert (NB : existsb a_break gap = false) by (apply (H gap a l); auto).
      assert (NL : existsb a_line gap = false).
      { destruct (existsb a_line gap) eqn:EL; [|reflexivity]. rewrite (line_break_gap _ EL) in NB. discriminate. }
      assert (NN : net gap = 0%Z).
      { clear - NB. induction gap as [|x gap IH]; [reflexivity|]. cbn in NB. apply orb_false_iff in NB as [N1 N2].
        cbn [net]. rewrite IH by auto. destruct x; try reflexivity. cbn in N1. apply negb_false_iff, Z.eqb_eq in N1. subst n. reflexivity. }
      cbv zeta. f_equal. unfold separator. rewrite NL, NB, NN.
      change (pad ind (0 + 0)) with (pad ind 0). unfold pad. cbn. destruct ind; reflexivity. }
  apply G; [constructor|exact H].
Qed.
Theorem C83_formatter_files_partial : forall cfg js ls,
  Forall2 (job_asks cfg) js (map (fun l => (l, true)) ls) -> Forall plain_file ls ->
  outcome (run_jobs string_writer cfg js (formatter_new [])) =
  joined (map (fun j => separate (cfg, [j])) js).
Proof.
  intros cfg js ls J P. rewrite (C83_formatter_jobs cfg js _ J).
  assert (SEP : forall j l, job_asks cfg j (l, true) ->
    separate (cfg, [j]) = (text (c_newline cfg) (layout (c_indentation cfg) l ++ [NL]), true)).
  { intros j l A. unfold separate. cbn [fst snd].
    rewrite (C83_formatter_jobs cfg [j] [(l, true)]) by (constructor; [exact A|constructor]).
    reflexivity. }
  assert (G : forall first ls js, Forall2 (job_asks cfg) js (map (fun l => (l, true)) ls) -> Forall plain_file ls ->
    (text (c_newline cfg) (jobs_layout (c_indentation cfg) first 0 [] (map (fun l => (l, true)) ls)), true) =
    joined (map (fun j => separate (cfg, [j])) js)).
  { clear J P js ls. intros first ls. revert first. induction ls as [|l ls IH]; intros first js J P.
    - inversion_clear J. reflexivity.
    - inversion_clear J as [|j ? js' ? A J']. inversion_clear P as [|? ? [P1 P2] P'].
      cbn [map joined jobs_layout app]. rewrite (SEP j l A), <- (IH false js' J' P'). cbn [fst snd].
      rewrite P1, Z.add_0_r. f_equal. rewrite !text_app. cbn [text flat_map sym_text]. rewrite app_nil_r, <- app_assoc.
      f_equal. unfold layout. destruct first; [reflexivity|]. rewrite layout_first by exact P2. reflexivity. }
  apply G; auto.
Qed.
Print Assumptions C83_formatter_files_partial.

(** Two Python files, on one string through two formatters, and on one
    formatter; these import nothing. *)
Definition ex_file (l : list py_import) (n : str) : job :=
  JFile python_lang tt (build ([CItem (Literal (Static n)); CIndent; CItem (Literal (Static $"x")); CUnindent;
                               CItem (Literal (Static $"}"))] ++ map (fun i => CItem (Register 0 i)) l)).
Definition ex_out (n : str) : str := n ++ [10%N] ++ $"    x" ++ [10%N] ++ $"}" ++ [10%N].
Example C83_example :
  separate (ex_cfg, [ex_file [] $"A {"]) = (ex_out $"A {", true) /\
  run_session string_writer [(ex_cfg, [ex_file [] $"A {"]); (ex_cfg, [ex_file [] $"B {"])] $"x" =
    ($"x" ++ ex_out $"A {" ++ ex_out $"B {", true) /\
  run_session vec_writer [(ex_cfg, [ex_file [] $"A {"]); (ex_cfg, [ex_file [] $"B {"])] vec_new =
    (mk_vec [$"A {"; $"    x"; $"}B {"; $"    x"] $"}", true) /\
  exists ls, Forall2 (job_asks ex_cfg) [ex_file [] $"A {"; ex_file [] $"B {"] (map (fun l => (l, true)) ls) /\
    Forall plain_file ls.
Proof.
  split; [vm_compute; reflexivity|]. split; [vm_compute; reflexivity|]. split; [vm_compute; reflexivity|].
  assert (A : forall n, exists l, job_asks ex_cfg (ex_file [] n) (l, true) /\
      l = [AText n; AIndent 1; AText $"x"; AIndent (-1); AText $"}"]).
  { intros n. eexists. split.
    - apply (asks_file ex_cfg _ _ _ python_lang tt _
        [map NItem []; map NItem [Literal (Static n); Indentation 1; Literal (Static $"x"); Indentation (-1); Literal (Static $"}")]]).
      constructor; [split; vm_compute; reflexivity|]. constructor; [split; vm_compute; reflexivity|]. constructor.
    - reflexivity. }
  destruct (A $"A {") as (l1 & J1 & ->). destruct (A $"B {") as (l2 & J2 & ->). eexists [_; _]. split.
  - constructor; [exact J1|]. constructor; [exact J2|]. constructor.
  - constructor; [|constructor; [|constructor]].
    all: split; [reflexivity|].
    all: intros [|b before] a rest E F V; [reflexivity|].
    all: injection E as <- _; inversion_clear F; discriminate.
Qed.

(** One vector for two files: the last line of the first and the first line of
    the second are one element. *)
Theorem C83_vec_files_refuted :
  exists v, run_session vec_writer [(ex_cfg, [ex_file [] $"A {"]); (ex_cfg, [ex_file [] $"B {"])] vec_new = (v, true) /\
    separate_lines (ex_cfg, [ex_file [] $"A {"]) = [$"A {"; $"    x"; $"}"] /\
    separate_lines (ex_cfg, [ex_file [] $"B {"]) = [$"B {"; $"    x"; $"}"] /\
    into_vec v = [$"A {"; $"    x"; $"}B {"; $"    x"; $"}"].
Proof. eexists. split; [vm_compute; reflexivity|]. repeat split; vm_compute; reflexivity. Qed.
Print Assumptions C83_vec_files_refuted.
(** One formatter for two files: the second begins with an empty line if it has
    imports. *)
Theorem C83_formatter_imports_refuted : let b := ex_file [py_new (Static $"foo") (Static $"F")] $"B {" in
  separate (ex_cfg, [b]) = ($"from foo import F" ++ [10; 10]%N ++ ex_out $"B {", true) /\
  outcome (run_jobs string_writer ex_cfg [ex_file [] $"A {"; b] (formatter_new [])) =
    (ex_out $"A {" ++ [10%N] ++ $"from foo import F" ++ [10; 10]%N ++ ex_out $"B {", true).
Proof. split; vm_compute; reflexivity. Qed.
Print Assumptions C83_formatter_imports_refuted.
(** One formatter for two files: the second is indented if the first leaves a
    block open. *)
Theorem C83_formatter_level_refuted :
  let a := JFile python_lang tt (build [CItem (Literal (Static $"A {")); CIndent; CItem (Literal (Static $"x"))]) in
  outcome (run_jobs string_writer ex_cfg [a; ex_file [] $"B {"] (formatter_new [])) =
    ($"A {" ++ [10%N] ++ $"    x" ++ [10%N] ++ $"B {" ++ [10%N] ++ $"        x" ++ [10%N] ++ $"    }" ++ [10%N], true).
Proof. vm_compute. reflexivity. Qed.
Print Assumptions C83_formatter_level_refuted.
