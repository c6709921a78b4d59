(** * Properties of formatting: C10-C21, and the rendering part of C07.

    Vocabulary: [SpecFmt.v] (layout, atoms, acceptance, sinks) and
    [SpecTokens.v]; model: [Tokens.v], [Fmt.v]. *)
From Verif Require Import Tokens SpecTokens TokensRun Fmt SpecStr SpecFmt RenderFacts WriterFacts
  LayoutFacts HistoryFacts OutputFacts StrFacts.

(** A small language for examples: items are rendered as a list of pieces. *)
Definition demo_ops : lang_ops nat := {|
  l_open_quote := fun e => [if e then [96%N] else [34%N]];
  l_close_quote := fun e => [if e then [96%N] else [34%N]];
  l_string_eval_literal := fun s => [$"$"; s];
  l_start_string_eval := [$"${"];
  l_end_string_eval := [$"}"];
  l_write_quoted := fun s => map (fun c => if N.eqb c 34 then [92%N; 34%N] else [c]) s;
  l_format_item := fun n => [$"<"; dec (N.of_nat n); $">"]
|}.
Definition demo_lang : lang_def nat unit unit := {|
  ld_indentation := ISpace 2;
  ld_ops := fun _ _ => demo_ops;
  ld_default_config := tt;
  ld_default_format := tt;
  ld_format_file := fun t _ =>
    [(from_iter [Literal (Box $"header"); Line], tt); (t, tt)]
|}.
Definition lit {LI} (s : str) : item LI := Literal (Box s).
Arguments lit {LI} s.

Definition demo_items : list (item nat) :=
  [Space; lit $"a"; Space; Lang 0 7; Line; Register 1 5; Indentation 2; lit $"b";
   Push; Space; lit $"c"; Indentation (-3); lit $"d"; Line; Space].

(** ** C10: rendering is determined by the gaps between visible texts *)

Theorem C10_layout : forall LI (ops : lang_ops LI) cfg its,
  forallb plain its = true ->
  outcome (format_items ops cfg string_writer its (formatter_new [])) =
  (text (c_newline cfg) (layout (c_indentation cfg) (atoms ops its)), true).
Proof. exact @plain_string. Qed.
Print Assumptions C10_layout.

(** With string literals, interpolations and quoted values inside strings. *)
Theorem C10_layout_documents : forall LI (ops : lang_ops LI) cfg ns,
  doc_ok ns = true ->
  outcome (format_items ops cfg string_writer (doc_items ns) (formatter_new [])) =
  (text (c_newline cfg) (layout (c_indentation cfg) (doc_atoms ops cfg ns)), true).
Proof. exact @doc_string. Qed.
Print Assumptions C10_layout_documents.

Example C10_example :
  forallb plain demo_items = true /\
  outcome (format_items demo_ops (mk_config (ISpace 2) [10%N]) string_writer demo_items
             (formatter_new [])) =
  ($" a <7>" ++ [10%N; 10%N] ++ $"    b" ++ [10%N] ++ $"     c" ++ [10%N] ++ $"d", true).
Proof. split; vm_compute; reflexivity. Qed.

Definition demo_doc : list (node nat) :=
  [NItem (lit $"x"); NItem Space;
   NString true [PItem (lit $"q"); PQuoted [lit $"w"; Push; lit $"v"];
                 PEval [NItem (lit $"name")];
                 PEval [NItem (lit $"f("); NString false [PItem (lit $"s")]; NItem (lit $")")]]].
Example C10_documents_example :
  doc_ok demo_doc = true /\
  outcome (format_items demo_ops (mk_config ITab [10%N]) string_writer (doc_items demo_doc)
             (formatter_new [])) =
  ($"x `q" ++ [92%N; 34%N] ++ $"w" ++ [10%N] ++ $"v" ++ [92%N; 34%N] ++ $"$name${f(" ++
   [34%N] ++ $"s" ++ [34%N] ++ $")}`", true).
Proof. split; vm_compute; reflexivity. Qed.

(** ** C11: no trailing whitespace *)

Theorem C11_no_trailing_blank : forall LI (ops : lang_ops LI) ind its,
  forallb plain its = true ->
  Forall (fun a => no_blank_end (a_text a) /\ no_newline (a_text a)) (atoms ops its) ->
  exists s,
    outcome (format_items ops (mk_config ind [10%N]) string_writer its (formatter_new []))
      = (s, true) /\
    Forall no_blank_end (text_lines s).
Proof.
  intros LI ops ind its P H. eexists; split; [apply C10_layout; auto|]. cbn [c_newline c_indentation].
  rewrite text_lines_sym.
  - apply layout_no_blank_end. eapply Forall_impl; [|exact H]. cbn; tauto.
  - apply layout_no_newline. eapply Forall_impl; [|exact H]. cbn; tauto.
Qed.
Print Assumptions C11_no_trailing_blank.

Example C11_example :
  Forall (fun a => no_blank_end (a_text a) /\ no_newline (a_text a)) (atoms demo_ops demo_items).
Proof.
  assert (H : forall s, (match rev s with c :: _ => is_blank c | [] => false end = false) /\
      existsb (N.eqb 10) s = false -> no_blank_end s /\ no_newline s).
  { intros s [H1 H2]. split.
    - intros s' c ->. rewrite rev_app_distr in H1. exact H1.
    - intros Hi. assert (existsb (N.eqb 10) s = true) by (apply existsb_exists; exists 10%N; auto).
      congruence. }
  repeat (constructor; [apply H; vm_compute; auto|]). constructor.
Qed.

(** ** C12: at most one blank line, never at the start or end *)

Theorem C12_blank_lines : forall LI (ops : lang_ops LI) ind its,
  forallb plain its = true ->
  Forall (fun a => no_newline (a_text a)) (atoms ops its) ->
  exists s,
    outcome (format_items ops (mk_config ind [10%N]) string_writer its (formatter_new []))
      = (s, true) /\
    (s = [] \/
     (forall x r, text_lines s = x :: r -> x <> []) /\
     (forall r x, text_lines s = r ++ [x] -> x <> []) /\
     (forall p a b q, text_lines s = p ++ a :: b :: q -> a <> [] \/ b <> [])).
Proof.
  intros LI ops ind its P H. eexists; split; [apply C10_layout; auto|]. cbn [c_newline c_indentation].
  rewrite text_lines_sym by (apply layout_no_newline; auto).
  destruct (layout_good ind (atoms ops its)) as [->|G]; auto.
Qed.
Print Assumptions C12_blank_lines.

(** A blank line is completely empty, if the texts do not end in blanks. *)
Theorem C12_blank_is_empty : forall LI (ops : lang_ops LI) ind its,
  forallb plain its = true ->
  Forall (fun a => no_blank_end (a_text a) /\ no_newline (a_text a)) (atoms ops its) ->
  exists s,
    outcome (format_items ops (mk_config ind [10%N]) string_writer its (formatter_new []))
      = (s, true) /\
    forall ln, In ln (text_lines s) -> forallb is_blank ln = true -> ln = [].
Proof.
  intros LI ops ind its P H. destruct (C11_no_trailing_blank LI ops ind its P H) as [s [E F]].
  exists s. split; auto. intros ln Hi Hb. rewrite Forall_forall in F. specialize (F ln Hi).
  destruct ln as [|c ln _] using rev_ind; auto. rewrite forallb_app in Hb. cbn in Hb.
  rewrite andb_true_r in Hb. apply andb_true_iff in Hb as [_ Hb].
  rewrite (F ln c eq_refl) in Hb. discriminate.
Qed.
Print Assumptions C12_blank_is_empty.

(** ** C13: each line is indented by the current level *)

(** At any visible text, the output is: what came before, the separator, the
    text and the rest; if the text starts a line, the separator is the line
    breaks, then [level] times the unit of indentation, then the spaces
    requested since. *)
Theorem C13_indentation : forall LI (ops : lang_ops LI) cfg its before a rest,
  forallb plain its = true ->
  atoms ops its = before ++ a :: rest -> visible a = true ->
  let first := negb (existsb visible before) in
  let gap := after_last visible before in
  let level := Z.to_nat (Z.max (net before) 0) in
  let unit := match c_indentation cfg with ISpace n => repeat 32%N n | ITab => [9%N] end in
  exists after,
  outcome (format_items ops cfg string_writer its (formatter_new [])) =
  (text (c_newline cfg) (layout (c_indentation cfg) before) ++
   (if first then
      concat (repeat unit level) ++ repeat 32%N (count_spaces gap)
    else if existsb a_line gap then
      c_newline cfg ++ c_newline cfg ++ concat (repeat unit level) ++
      repeat 32%N (count_spaces (after_last a_line gap))
    else if existsb a_break gap then
      c_newline cfg ++ concat (repeat unit level) ++
      repeat 32%N (count_spaces (after_last a_break gap))
    else repeat 32%N (count_spaces gap)) ++
   a_text a ++ after, true).
Proof.
  intros LI ops cfg its before a rest P E V first gap level unit.
  eexists. rewrite C10_layout, E, layout_at by auto. f_equal.
  rewrite !text_app, text_chars. f_equal. f_equal.
  assert (U : text (c_newline cfg) (pad (c_indentation cfg) (net before)) = concat (repeat unit level)).
  { rewrite pad_text, text_chars. unfold unit, indent_text, level. destruct (c_indentation cfg) as [w|].
    - generalize (Z.to_nat (Z.max (net before) 0)) as n. induction n as [|n IH]; cbn; auto.
      rewrite repeat_app, IH. reflexivity.
    - generalize (Z.to_nat (Z.max (net before) 0)) as n. induction n as [|n IH]; cbn; auto.
      rewrite IH; reflexivity. }
  unfold separator. fold first gap.
  destruct first; [|destruct (existsb a_line gap); [|destruct (existsb a_break gap)]];
    rewrite ?text_app, ?U, ?blanks_text, ?text_chars; auto.
  - cbn. rewrite app_nil_r, <- !app_assoc; auto.
  - cbn. rewrite app_nil_r; auto.
Qed.
Print Assumptions C13_indentation.

Example C13_example : exists before rest,
  atoms demo_ops demo_items = before ++ AText $"c" :: rest /\
  net before = 2%Z /\ existsb a_break (after_last visible before) = true /\
  count_spaces (after_last a_break (after_last visible before)) = 1.
Proof.
  exists (firstn 11 (atoms demo_ops demo_items)), (skipn 12 (atoms demo_ops demo_items)).
  vm_compute. auto.
Qed.

(** ** C14: line endings and indentation style *)

Theorem C14_newline : forall LI (ops : lang_ops LI) ind ns,
  doc_ok ns = true -> forallb node_simple ns = true ->
  exists o : list sym, forall newline,
    outcome (format_items ops (mk_config ind newline) string_writer (doc_items ns)
               (formatter_new [])) = (text newline o, true).
Proof.
  intros LI ops ind ns H1 H2. exists (layout ind (doc_atoms ops (mk_config ind []) ns)).
  intros newline. rewrite C10_layout_documents by auto. cbn [c_newline c_indentation].
  rewrite (doc_atoms_cfg ops (mk_config ind newline) (mk_config ind [])) by auto. reflexivity.
Qed.
Print Assumptions C14_newline.

Theorem C14_indentation_style : forall LI (ops : lang_ops LI) ns,
  doc_ok ns = true -> forallb node_simple ns = true ->
  exists lines : list (Z * str), forall ind newline,
    outcome (format_items ops (mk_config ind newline) string_writer (doc_items ns)
               (formatter_new [])) =
    (join newline (map (fun '(level, rest) => indent_text ind level ++ rest) lines), true).
Proof.
  intros LI ops ns H1 H2.
  destruct (layout_style (doc_atoms ops (mk_config ITab []) ns)) as [ls H]. exists ls.
  intros ind newline. rewrite C10_layout_documents by auto. cbn [c_newline c_indentation].
  rewrite (doc_atoms_cfg ops (mk_config ind newline) (mk_config ITab [])) by auto.
  rewrite text_join, H. reflexivity.
Qed.
Print Assumptions C14_indentation_style.

Definition demo_doc2 : list (node nat) :=
  map NItem demo_items ++
  [NString true [PItem (lit $"q"); PEval [NItem Push; NItem (lit $"f()")]]].
Example C14_example :
  doc_ok demo_doc2 = true /\ forallb node_simple demo_doc2 = true.
Proof. split; reflexivity. Qed.

(** A quoted value inside a string is rendered on its own first, line breaks
    included, and the result is escaped: there the newline is not merely a
    separator. *)
Theorem C14_nested_quote_refuted : exists (ops : lang_ops nat) ns,
  doc_ok ns = true /\
  ~ exists o : list sym, forall newline,
    outcome (format_items ops (mk_config ITab newline) string_writer (doc_items ns)
               (formatter_new [])) = (text newline o, true).
Proof.
  exists demo_ops, [NString false [PQuoted [lit $"a"; Push; lit $"b"]]]. split; [reflexivity|].
  intros [o H].
  (* a newline string containing a double quote is escaped inside the string *)
  pose proof (H [10%N]) as H0. pose proof (H [34%N]) as H1.
  vm_compute in H0, H1.
  assert (L : forall nl, length (text nl o) =
     length (filter (fun x => match x with Ch _ => true | NL => false end) o) +
     length (filter (fun x => match x with Ch _ => false | NL => true end) o) * length nl).
  { intros nl. clear. induction o as [|[c|] o IH]; cbn; auto; rewrite ?app_length; unfold text in *; cbn in *; lia. }
  inversion H0 as [E0]. inversion H1 as [E1].
  pose proof (eq_trans (f_equal (@length _) E0) (L [10%N])) as X0.
  pose proof (eq_trans (f_equal (@length _) E1) (L [34%N])) as X1.
  cbn [length] in X0, X1. lia.
Qed.
Print Assumptions C14_nested_quote_refuted.

(** ** C15: string and line-vector outputs agree *)

Theorem C15_string_and_vec : forall LI Config Format (L : lang_def LI Config Format) t,
  to_string L t = option_map (join [10%N]) (to_vec L t).
Proof. exact @to_string_vec. Qed.
Print Assumptions C15_string_and_vec.

Theorem C15_file_string_and_vec : forall LI Config Format (L : lang_def LI Config Format) t,
  to_file_string L t = option_map (fun lines => join [10%N] lines ++ [10%N]) (to_file_vec L t).
Proof. exact @to_file_string_vec. Qed.
Print Assumptions C15_file_string_and_vec.

(** For every configuration and every list of streams. *)
Theorem C15_any_config : forall LI Config Format (L : lang_def LI Config Format) cfg c ts,
  let '(v, ok) := outcome (format_streams L vec_writer cfg c ts (formatter_new vec_new)) in
  outcome (format_streams L string_writer cfg c ts (formatter_new [])) =
  (join (c_newline cfg) (into_vec v), ok).
Proof. exact @streams_vec. Qed.
Print Assumptions C15_any_config.

Example C15_example :
  to_file_vec demo_lang (from_iter demo_items) =
    Some [$"header"; []; $" a <7>"; []; $"    b"; $"     c"; $"d"] /\
  to_file_vec demo_lang (from_iter [CloseQuote]) = None.
Proof. split; vm_compute; reflexivity. Qed.

(** ** C16: byte output is the UTF-8 encoding of text output *)

Definition byte_sink : list N -> list N -> list N * bool := fun b w => (w ++ b, true).

Theorem C16_bytes : forall LI Config Format (L : lang_def LI Config Format) cfg t c f,
  outcome (format L (io_writer byte_sink) cfg t c f (formatter_new [])) =
  let '(s, ok) := outcome (format L string_writer cfg t c f (formatter_new [])) in
  (utf8 s, ok).
Proof.
  intros. apply (run_bytes cfg (fun W wr => format L wr cfg t c f)).
  intros W wr. apply FmtFacts.format_items_sim.
Qed.
Print Assumptions C16_bytes.

Theorem C16_bytes_file : forall LI Config Format (L : lang_def LI Config Format) cfg t c,
  outcome (format_file L (io_writer byte_sink) cfg t c (formatter_new [])) =
  let '(s, ok) := outcome (format_file L string_writer cfg t c (formatter_new [])) in
  (utf8 s, ok).
Proof.
  intros. apply (run_bytes cfg (fun W wr => format_file L wr cfg t c)).
  intros W wr. apply FmtFacts.format_file_sim.
Qed.
Print Assumptions C16_bytes_file.

(** The encoding decodes back to the text. *)
Theorem C16_decodes : forall s, valid s -> utf8_decodes (utf8 s) s.
Proof. exact utf8_ok. Qed.
Print Assumptions C16_decodes.

Example C16_example :
  outcome (format unit_lang (io_writer byte_sink) (mk_config ITab [13%N; 10%N])
    (from_iter [lit [233%N]; Push; lit [8364%N; 128512%N]]) tt tt (formatter_new [])) =
  ([195; 169; 13; 10; 226; 130; 172; 240; 159; 152; 128]%N, true).
Proof. vm_compute. reflexivity. Qed.

(** ** C17: sink failures are reported and leave a prefix *)

(** There is a fixed sequence of chunks, whose concatenation is the full
    output, and any text or byte sink just receives these until it refuses
    one. *)
Theorem C17_delivery : forall LI Config Format (L : lang_def LI Config Format) cfg t c,
  exists chunks ok,
  outcome (format_file L string_writer cfg t c (formatter_new [])) = (concat chunks, ok) /\
  (forall W (sink : str -> W -> W * bool) w,
     outcome (format_file L (fmt_writer sink) cfg t c (formatter_new w)) =
     let '(w', delivered) := deliver sink chunks w in (w', delivered && ok)) /\
  (forall W (write_all : list N -> W -> W * bool) w,
     outcome (format_file L (io_writer write_all) cfg t c (formatter_new w)) =
     let '(w', delivered) := deliver (as_bytes write_all) chunks w in (w', delivered && ok)).
Proof.
  intros. apply (run_chunks cfg (fun W wr => format_file L wr cfg t c)).
  intros W wr. apply FmtFacts.format_file_sim.
Qed.
Print Assumptions C17_delivery.

Theorem C17_prefix : forall LI Config Format (L : lang_def LI Config Format) cfg t c
    W (sink : str -> W -> W * bool) (log : W -> str) w,
  keeps sink log ->
  let full := outcome (format_file L string_writer cfg t c (formatter_new [])) in
  let got := outcome (format_file L (fmt_writer sink) cfg t c (formatter_new w)) in
  exists p q, fst full = p ++ q /\ log (fst got) = log w ++ p /\
    (snd got = true -> q = [] /\ snd full = true).
Proof.
  intros. apply (run_prefix cfg (fun W wr => format_file L wr cfg t c)); auto.
  intros W' wr. apply FmtFacts.format_file_sim.
Qed.
Print Assumptions C17_prefix.

Theorem C17_all_delivered : forall LI Config Format (L : lang_def LI Config Format) cfg t c
    W (sink : str -> W -> W * bool) (log : W -> str) w,
  keeps sink log -> (forall s w, snd (sink s w) = true) ->
  let full := outcome (format_file L string_writer cfg t c (formatter_new [])) in
  let got := outcome (format_file L (fmt_writer sink) cfg t c (formatter_new w)) in
  log (fst got) = log w ++ fst full /\ snd got = snd full.
Proof.
  intros. apply (run_all cfg (fun W wr => format_file L wr cfg t c)); auto.
  intros W' wr. apply FmtFacts.format_file_sim.
Qed.
Print Assumptions C17_all_delivered.

(** A sink with limited room, which takes what fits and then refuses. *)
Definition bounded_sink (s : str) (w : str * nat) : (str * nat) * bool :=
  let '(log, room) := w in
  ((log ++ firstn room s, room - length s), Nat.leb (length s) room).
Example C17_example :
  keeps bounded_sink fst /\
  outcome (format_file demo_lang (fmt_writer bounded_sink) (mk_config ITab [10%N])
    (from_iter [lit $"a"; Push; lit $"bcd"]) tt (formatter_new ([], 12))) =
  (($"header" ++ [10%N; 10%N] ++ $"a" ++ [10%N] ++ $"bc", 0), false).
Proof.
  split; [|vm_compute; reflexivity].
  intros s [log room]. cbn [bounded_sink]. destruct (Nat.leb_spec (length s) room).
  - cbn. rewrite firstn_all2; auto.
  - exists (firstn room s), (skipn room s). rewrite firstn_skipn; auto.
Qed.

(** ** C18: registered imports never render *)

Theorem C18_registrations_do_not_render : forall LI (ops : lang_ops LI) cfg W (wr : writer W) its st,
  quiet_evals its ->
  format_items ops cfg wr (filter not_register its) st = format_items ops cfg wr its st.
Proof. exact @format_strip. Qed.
Print Assumptions C18_registrations_do_not_render.

Example C18_example : quiet_evals demo_items.
Proof.
  intros pre post E. exfalso.
  assert (H : In OpenEval demo_items) by (rewrite E; apply in_or_app; right; left; auto).
  cbn in H. intuition discriminate.
Qed.

(** Registering where no whitespace is pending does not change the rendering of
    anything that is appended before or afterwards. *)
Theorem C18_register_anywhere_partial : forall LI (ops : lang_ops LI) cfg W (wr : writer W) st
    before after prev l,
  closed (items (build before)) ->
  let with_it := items (build (before ++ CItem (Register prev l) :: after)) in
  let without := items (build (before ++ after)) in
  quiet_evals with_it -> quiet_evals without ->
  format_items ops cfg wr with_it st = format_items ops cfg wr without st.
Proof.
  intros LI ops cfg W wr st before after prev l C a b Qa Qb.
  rewrite <- (format_strip ops cfg wr a) by auto. rewrite <- (format_strip ops cfg wr b) by auto.
  rewrite <- (format_erase ops cfg wr (filter not_register a)).
  rewrite <- (format_erase ops cfg wr (filter not_register b)).
  unfold a, b. rewrite register_closed by auto. reflexivity.
Qed.
Print Assumptions C18_register_anywhere_partial.

(** With pending whitespace, a registration prevents merging: two spaces. *)
Theorem C18_register_anywhere_refuted : exists before after (l : nat),
  to_string demo_lang (build (before ++ CItem (Register 0 l) :: after)) <>
  to_string demo_lang (build (before ++ after)).
Proof.
  exists [CItem (lit $"a"); CSpace], [CSpace; CItem (lit $"b")], 1.
  vm_compute. discriminate.
Qed.
Print Assumptions C18_register_anywhere_refuted.

(** Inside an interpolation, a registration can change the syntax chosen for
    the interpolation: [${name}] instead of [$name]. *)
Theorem C18_eval_registration_refuted : exists its : list (item nat),
  outcome (format_items demo_ops (mk_config ITab [10%N]) string_writer
             (filter not_register its) (formatter_new [])) <>
  outcome (format_items demo_ops (mk_config ITab [10%N]) string_writer its (formatter_new [])).
Proof.
  exists [OpenQuote true; OpenEval; Register 0 1; lit $"name"; CloseEval; CloseQuote].
  vm_compute. discriminate.
Qed.
Print Assumptions C18_eval_registration_refuted.

(** ** C19: formatting succeeds exactly on well-formed quote structure *)

Theorem C19_accepts : forall LI (ops : lang_ops LI) cfg W (wr : writer W) its st,
  writes_ok wr ->
  snd (format_items ops cfg wr its st) = accepts [] its.
Proof. exact @format_accepts. Qed.
Print Assumptions C19_accepts.

(** Whatever the sink does, a stream that is not accepted is reported. *)
Theorem C19_rejects : forall LI (ops : lang_ops LI) cfg W (wr : writer W) its st,
  accepts [] its = false -> snd (format_items ops cfg wr its st) = false.
Proof. exact @format_rejects. Qed.
Print Assumptions C19_rejects.

(** What the four rendering methods return: a result exactly when the stream,
    or every stream of the file, is accepted. *)
Theorem C19_rendered : forall LI Config Format (L : lang_def LI Config Format) t,
  ((exists s, to_string L t = Some s) <-> accepts [] (items t) = true) /\
  ((exists lines, to_vec L t = Some lines) <-> accepts [] (items t) = true).
Proof.
  intros LI Config Format L t. unfold to_string, to_vec, format. split.
  - pose proof (format_accepts (ld_ops L (ld_default_config L) (ld_default_format L))
      (config_from_lang L) string_writer (items t) (formatter_new [])
      (conj (fun _ _ => eq_refl) (fun _ _ => eq_refl))) as A.
    destruct (format_items _ _ string_writer _ _) as [st ok]. cbn in A. subst ok. cbn.
    destruct (accepts [] (items t)); split; intros H; eauto; try discriminate.
    destruct H; discriminate.
  - pose proof (format_accepts (ld_ops L (ld_default_config L) (ld_default_format L))
      (config_from_lang L) vec_writer (items t) (formatter_new vec_new)
      (conj (fun _ _ => eq_refl) (fun _ _ => eq_refl))) as A.
    destruct (format_items _ _ vec_writer _ _) as [st ok]. cbn in A. subst ok. cbn.
    destruct (accepts [] (items t)); split; intros H; eauto; try discriminate.
    destruct H; discriminate.
Qed.
Print Assumptions C19_rendered.

Theorem C19_file_rendered : forall LI Config Format (L : lang_def LI Config Format) t,
  let accepted := Forall (fun stream => accepts [] (items (fst stream)) = true)
                    (ld_format_file L t (ld_default_config L)) in
  ((exists s, to_file_string L t = Some s) <-> accepted) /\
  ((exists lines, to_file_vec L t = Some lines) <-> accepted).
Proof.
  intros LI Config Format L t accepted.
  assert (A : accepted <-> streams_accept (ld_format_file L t (ld_default_config L)) = true).
  { unfold accepted, streams_accept. rewrite forallb_forall, Forall_forall. reflexivity. }
  rewrite A. clear A accepted. unfold to_file_string, to_file_vec, format_file.
  destruct (streams_atoms L (config_from_lang L) (ld_default_config L)
              (ld_format_file L t (ld_default_config L))) as [l H].
  rewrite !H. rewrite !run_atoms_ok by (split; reflexivity). cbn [andb].
  destruct (streams_accept (ld_format_file L t (ld_default_config L))); cbn; split; split;
    intros X; eauto; try discriminate; destruct X; discriminate.
Qed.
Print Assumptions C19_file_rendered.

Theorem C19_documents_accepted : forall LI (ns : list (node LI)),
  doc_ok ns = true -> accepts [] (doc_items ns) = true.
Proof. exact (fun LI ns => doc_accepts (default_ops (fun _ => [])) (mk_config ITab []) ns). Qed.
Print Assumptions C19_documents_accepted.

Example C19_example :
  accepts [] (doc_items demo_doc) = true /\
  accepts [] [OpenQuote true; OpenQuote true; @CloseQuote nat; CloseQuote] = false /\
  accepts [] [@OpenEval nat; CloseEval] = false /\
  accepts [] [lit $"a"; @CloseQuote nat] = false.
Proof. repeat split; reflexivity. Qed.

(** Quoting a value three times is not formatted. *)
Theorem C19_triple_quote_refuted : forall LI (ops : lang_ops LI) cfg W (wr : writer W) s st,
  let quoted xs := OpenQuote false :: xs ++ [CloseQuote] in
  snd (format_items ops cfg wr (quoted (quoted (quoted [lit s]))) st) = false.
Proof. intros. apply C19_rejects. reflexivity. Qed.
Print Assumptions C19_triple_quote_refuted.

(** Unclosed quotes and evaluations are not reported, nor is an evaluation that
    is closed while a string inside it is still open. *)
Theorem C19_unclosed_refuted : forall LI (ops : lang_ops LI) cfg st,
  snd (format_items ops cfg string_writer [OpenQuote true; OpenEval; lit $"a"] st) = true /\
  snd (format_items ops cfg string_writer
         [OpenQuote true; OpenEval; OpenQuote false; CloseEval; CloseQuote] st) = true.
Proof.
  intros. split.
  - rewrite C19_accepts; [reflexivity|split; auto].
  - rewrite C19_accepts; [reflexivity|split; auto].
Qed.
Print Assumptions C19_unclosed_refuted.

(** ** C20: files end in exactly one line terminator *)

(** The streams of a file (header and body) are laid out as one sequence, and
    one newline follows the last visible text. *)
Theorem C20_file : forall LI Config Format (L : lang_def LI Config Format) cfg t c
    (ts : list (tokens LI * Format * list (node LI))),
  ld_format_file L t c = map fst ts ->
  Forall (fun p => items (fst (fst p)) = doc_items (snd p) /\ doc_ok (snd p) = true) ts ->
  outcome (format_file L string_writer cfg t c (formatter_new [])) =
  (text (c_newline cfg) (layout (c_indentation cfg)
     (flat_map (fun p => doc_atoms (ld_ops L c (snd (fst p))) cfg (snd p)) ts))
   ++ c_newline cfg, true).
Proof. exact @file_docs. Qed.
Print Assumptions C20_file.

(** Any file, whatever its streams: it is accepted exactly if all its streams
    are, and is a layout of its texts followed by one newline. *)
Theorem C20_any_file : forall LI Config Format (L : lang_def LI Config Format) cfg t c,
  exists l : list atom,
  let accepted := forallb (fun p => accepts [] (items (fst p))) (ld_format_file L t c) in
  outcome (format_file L string_writer cfg t c (formatter_new [])) =
  (text (c_newline cfg) (layout (c_indentation cfg) l) ++
     (if accepted then c_newline cfg else []), accepted).
Proof. exact @any_file. Qed.
Print Assumptions C20_any_file.

(** The layout ends with the last visible text. *)
Theorem C20_layout_end : forall ind before a after,
  visible a = true -> Forall (fun x => visible x = false) after ->
  exists o, layout ind (before ++ a :: after) = o ++ map Ch (a_text a).
Proof. exact layout_end. Qed.
Print Assumptions C20_layout_end.

Theorem C20_nothing_visible : forall ind l,
  Forall (fun x => visible x = false) l -> layout ind l = [].
Proof.
  intros ind l H. unfold layout. generalize (@nil atom) as g. induction H; intros g; cbn; auto.
  unfold visible in H. destruct (a_text x); [auto|discriminate].
Qed.
Print Assumptions C20_nothing_visible.

Example C20_example :
  to_file_string demo_lang (from_iter [Space; lit $"a"; Line; Indentation 1; Space; Register 0 1]) =
    Some ($"header" ++ [10%N; 10%N] ++ $" a" ++ [10%N]) /\
  to_file_string unit_lang (from_iter [Line; Indentation 1; Space]) = Some [10%N].
Proof. split; vm_compute; reflexivity. Qed.
Example C20_example_hypotheses : exists ts,
  ld_format_file demo_lang (from_iter demo_items) tt = map fst ts /\
  Forall (fun p : tokens nat * unit * list (node nat) =>
    items (fst (fst p)) = doc_items (snd p) /\ doc_ok (snd p) = true) ts.
Proof.
  exists [(from_iter [lit $"header"; Line], tt, map NItem [lit $"header"; Line]);
          (from_iter demo_items, tt, map NItem (items (from_iter demo_items)))].
  split; [reflexivity|]. repeat constructor.
Qed.

(** ** C21: layout of an API history *)

Theorem C21_history : forall LI Config Format (L : lang_def LI Config Format) cfg c f h,
  Forall (fun a => match a with TText s => s <> [] | _ => True end) h ->
  outcome (format L string_writer cfg (build (map act_call h)) c f (formatter_new [])) =
  (text (c_newline cfg) (history_layout (c_indentation cfg) h), true).
Proof.
  intros LI Config Format L cfg c f h H.
  destruct (history_build (ld_ops L c f) (c_indentation cfg) h H) as [P E].
  unfold format. rewrite C10_layout, E by auto. reflexivity.
Qed.
Print Assumptions C21_history.

Definition demo_history : list act :=
  [TText $"fn f() {"; TIndent; TText $"a"; TSpace; TSpace; TText $"b"; TPush; TLine; TPush;
   TText $"c"; TSpace; TPush; TText $"d"; TLine; TUnindent; TText $"}"; TPush; TIndent; TUnindent;
   TText $";"].
Example C21_example :
  Forall (fun a => match a with TText s => s <> [] | _ => True end) demo_history /\
  text [10%N] (history_layout (ISpace 4) demo_history) =
  $"fn f() {" ++ [10%N] ++ $"    a b" ++ [10%N; 10%N] ++ $"    c" ++ [10%N] ++ $"    d" ++
  [10%N] ++ $"};".
Proof. split; [repeat constructor; discriminate|vm_compute; reflexivity]. Qed.

(** ** C07 (rendering): indent directly followed by unindent *)

(** It removes a pending push: [a] and [b] end up on one line. *)
Theorem C07_indent_unindent_rendering_refuted : exists before after : list (call nat),
  to_string demo_lang (build (before ++ [CIndent; CUnindent] ++ after)) <>
  to_string demo_lang (build (before ++ after)).
Proof.
  exists [CItem (lit $"a"); CPush], [CItem (lit $"b")]. vm_compute. discriminate.
Qed.
Print Assumptions C07_indent_unindent_rendering_refuted.
