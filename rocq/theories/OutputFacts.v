(** * Outputs of streams and files. *)
From Verif Require Import Tokens SpecTokens Fmt SpecFmt SpecStr FmtFacts RenderFacts WriterFacts StrFacts
  LayoutFacts.

(** ** Delivery *)

Definition chunk (cfg : config) (e : event) : str :=
  match e with EStr s => s | _ => c_newline cfg end.

Lemma replay_fmt {W} cfg (sink : str -> W -> W * bool) tr : forall w,
  replay (fmt_writer sink) cfg tr w = deliver sink (map (chunk cfg) tr) w.
Proof.
  induction tr as [|e tr IH]; intros w; cbn [replay map deliver]; auto.
  destruct e; cbn; destruct (sink _ w) as [w' [|]]; auto.
Qed.
Lemma replay_io {W} cfg (wa : list N -> W -> W * bool) tr : forall w,
  replay (io_writer wa) cfg tr w = deliver (as_bytes wa) (map (chunk cfg) tr) w.
Proof.
  induction tr as [|e tr IH]; intros w; cbn [replay map deliver]; auto.
  destruct e; cbn; unfold as_bytes; destruct (wa _ w) as [w' [|]]; auto.
Qed.
Lemma deliver_string chunks : forall w,
  deliver (fun s w => (w ++ s, true)) chunks w = (w ++ concat chunks, true).
Proof.
  induction chunks as [|s ch IH]; intros w; cbn.
  - rewrite app_nil_r; auto.
  - rewrite IH, app_assoc; auto.
Qed.
Lemma deliver_bytes chunks : forall w,
  deliver (as_bytes (fun b w => (w ++ b, true))) chunks w = (w ++ utf8 (concat chunks), true).
Proof.
  induction chunks as [|s ch IH]; intros w; cbn [deliver as_bytes concat].
  - cbn. rewrite app_nil_r; auto.
  - unfold as_bytes at 1. rewrite IH, utf8_app, app_assoc; auto.
Qed.
Lemma deliver_ok {W} (sink : str -> W -> W * bool) chunks w :
  (forall s w, snd (sink s w) = true) -> snd (deliver sink chunks w) = true.
Proof.
  intros H. revert w. induction chunks as [|s ch IH]; intros w; cbn; auto.
  specialize (H s w). destruct (sink s w) as [w' [|]]; cbn in *; auto.
Qed.

Section Runs.
Context (cfg : config) (F : forall W, writer W -> fstate W -> fstate W * bool).
Context (S : forall W (wr : writer W), sim_fun wr cfg (F _ trace_writer) (F _ wr)).

Lemma run_replay : exists tr ok, forall W (wr : writer W) w,
  outcome (F _ wr (formatter_new w)) =
  let '(w', d) := replay wr cfg tr w in (w', d && ok).
Proof.
  exists (f_write (fst (F _ trace_writer (formatter_new [])))),
    (snd (F _ trace_writer (formatter_new []))).
  intros W wr w. destruct (S W wr (formatter_new []) w) as [tr [E1 E2]].
  cbn [f_write formatter_new app] in E1. rewrite E1. clear E1.
  change (put (formatter_new []) w) with (formatter_new w) in E2.
  destruct (replay wr cfg tr w) as [w' [|]]; unfold outcome.
  - rewrite E2. reflexivity.
  - destruct E2 as [-> ->]. reflexivity.
Qed.

Lemma run_chunks : exists chunks ok,
  outcome (F _ string_writer (formatter_new [])) = (concat chunks, ok) /\
  (forall W (sink : str -> W -> W * bool) w,
     outcome (F _ (fmt_writer sink) (formatter_new w)) =
     let '(w', d) := deliver sink chunks w in (w', d && ok)) /\
  (forall W (wa : list N -> W -> W * bool) w,
     outcome (F _ (io_writer wa) (formatter_new w)) =
     let '(w', d) := deliver (as_bytes wa) chunks w in (w', d && ok)).
Proof.
  destruct run_replay as [tr [ok R]]. exists (map (chunk cfg) tr), ok. split; [|split].
  - rewrite R. change string_writer with (fmt_writer (fun s (w : str) => (w ++ s, true))).
    rewrite replay_fmt, deliver_string. reflexivity.
  - intros. rewrite R, replay_fmt. reflexivity.
  - intros. rewrite R, replay_io. reflexivity.
Qed.

Lemma run_bytes :
  outcome (F _ (io_writer (fun b (w : list N) => (w ++ b, true))) (formatter_new [])) =
  let '(s, ok) := outcome (F _ string_writer (formatter_new [])) in (utf8 s, ok).
Proof.
  destruct run_chunks as [ch [ok [E1 [_ E3]]]]. rewrite E1, E3, deliver_bytes. reflexivity.
Qed.

Lemma deliver_log {W} (sink : str -> W -> W * bool) log : keeps sink log ->
  forall chunks w, let '(w', d) := deliver sink chunks w in
  exists p q, concat chunks = p ++ q /\ log w' = log w ++ p /\ (d = true -> q = []).
Proof.
  intros K. induction chunks as [|s ch IH]; intros w; cbn [deliver concat].
  - exists [], []. repeat split; auto. rewrite app_nil_r; auto.
  - specialize (K s w). destruct (sink s w) as [w1 [|]].
    + specialize (IH w1). destruct (deliver sink ch w1) as [w' d].
      destruct IH as [p [q [E1 [E2 E3]]]]. exists (s ++ p), q.
      rewrite E1, E2, K, !app_assoc. auto.
    + destruct K as [p [q [-> E]]]. exists p, (q ++ concat ch). rewrite app_assoc.
      repeat split; auto. discriminate.
Qed.

Lemma run_prefix {W} (sink : str -> W -> W * bool) log w : keeps sink log ->
  exists p q, fst (outcome (F _ string_writer (formatter_new []))) = p ++ q /\
    log (fst (outcome (F _ (fmt_writer sink) (formatter_new w)))) = log w ++ p /\
    (snd (outcome (F _ (fmt_writer sink) (formatter_new w))) = true ->
     q = [] /\ snd (outcome (F _ string_writer (formatter_new []))) = true).
Proof.
  intros K. destruct run_chunks as [ch [ok [E1 [E2 _]]]]. rewrite E1, E2.
  pose proof (deliver_log sink log K ch w) as D.
  destruct (deliver sink ch w) as [w' d]. destruct D as [p [q [D1 [D2 D3]]]].
  exists p, q. cbn. repeat split; auto; apply andb_true_iff in H as [H1 H2]; auto.
Qed.

(** If no write is refused, everything is delivered. *)
Lemma run_all {W} (sink : str -> W -> W * bool) log w : keeps sink log ->
  (forall s w, snd (sink s w) = true) ->
  log (fst (outcome (F _ (fmt_writer sink) (formatter_new w)))) =
    log w ++ fst (outcome (F _ string_writer (formatter_new []))) /\
  snd (outcome (F _ (fmt_writer sink) (formatter_new w))) =
  snd (outcome (F _ string_writer (formatter_new []))).
Proof.
  intros K OK. destruct run_chunks as [ch [ok [E1 [E2 _]]]]. rewrite E1, E2.
  pose proof (deliver_log sink log K ch w) as D.
  pose proof (deliver_ok sink ch w OK) as DO.
  destruct (deliver sink ch w) as [w' d]. destruct D as [p [q [D1 [D2 D3]]]].
  cbn in *. subst d. rewrite (D3 eq_refl), app_nil_r in D1. subst p. auto.
Qed.

End Runs.

(** ** Vectors *)

Section VecString.
Context {LI Config Format : Type} (L : lang_def LI Config Format).

Lemma streams_vec cfg c ts :
  let '(v, okv) := outcome (format_streams L vec_writer cfg c ts (formatter_new vec_new)) in
  outcome (format_streams L string_writer cfg c ts (formatter_new [])) =
  (join (c_newline cfg) (into_vec v), okv).
Proof.
  destruct (streams_atoms L cfg c ts) as [l H]. rewrite !H. unfold outcome; cbn [fst snd].
  destruct (fresh_trace cfg l) as [tr [stt [E1 [E2 [E3 E4]]]]].
  assert (R : forall W (wr : writer W) w,
     f_write (fst (run_atoms wr cfg l (formatter_new w))) = fst (replay wr cfg tr w) /\
     snd (run_atoms wr cfg l (formatter_new w)) = snd (replay wr cfg tr w)).
  { intros W wr w. pose proof (run_atoms_sim wr cfg l (formatter_new []) w) as [tr2 [S1 S2]].
    rewrite E1 in S1, S2. cbn [fst snd f_write put formatter_new app] in S1, S2.
    rewrite E2 in S1. cbn in S1. subst tr2.
    change (put (formatter_new []) w) with (formatter_new w) in S2.
    destruct (replay wr cfg tr w) as [w' [|]]; cbn [fst snd].
    - rewrite S2. auto.
    - exact S2. }
  destruct (R str string_writer []) as [R1 R2]. destruct (R _ vec_writer vec_new) as [R3 R4].
  unfold str in *.
  rewrite R1, R2, R3, R4, replay_string. cbn [fst snd].
  destruct (replay_vec cfg tr E3 [] []) as [v [V1 V2]].
  change vec_new with (mk_vec [] []). rewrite V1. cbn [fst snd app] in *.
  rewrite V2, text_join. do 2 f_equal.
  pose proof (sym_lines_nonempty (flat tr)). destruct (sym_lines (flat tr)); [congruence|auto].
Qed.

Lemma to_string_vec t :
  to_string L t = option_map (join [10%N]) (to_vec L t).
Proof.
  pose proof (streams_vec (config_from_lang L) (ld_default_config L) [(t, ld_default_format L)]) as H.
  cbn [format_streams] in H. unfold to_string, to_vec.
  assert (AT : forall W (r : fstate W * bool), and_then r (fun st => (st, true)) = r).
  { intros W [st []]; auto. }
  rewrite !AT in H. unfold outcome in H.
  destruct (format L string_writer _ t _ _ _) as [st ok].
  destruct (format L vec_writer _ t _ _ _) as [st2 ok2].
  cbn in *. inversion H as [[H1 H2]]. subst ok2. destruct ok; cbn; congruence.
Qed.

Lemma to_file_string_vec t :
  to_file_string L t = option_map (fun ls => join [10%N] ls ++ [10%N]) (to_file_vec L t).
Proof.
  pose proof (streams_vec (config_from_lang L) (ld_default_config L)
    (ld_format_file L t (ld_default_config L))) as H.
  unfold to_file_string, to_file_vec, format_file, outcome in *.
  destruct (format_streams L string_writer _ _ _ _) as [st ok].
  destruct (format_streams L vec_writer _ _ _ _) as [st2 ok2].
  cbn [fst snd] in H. inversion H as [[H1 H2]]. subst ok2.
  destruct ok; cbn; auto. rewrite H1. reflexivity.
Qed.

End VecString.

(** ** Acceptance *)

Section Accepts.
Context {LI : Type} (ops : lang_ops LI) (cfg : config).

Lemma format_accepts {W} (wr : writer W) its st : writes_ok wr ->
  snd (format_items ops cfg wr its st) = accepts [] its.
Proof.
  intros T. destruct (accepts_atoms ops cfg its) as [l H]. rewrite H. cbn.
  rewrite run_atoms_ok; auto.
Qed.

Lemma format_rejects {W} (wr : writer W) its st : accepts [] its = false ->
  snd (format_items ops cfg wr its st) = false.
Proof.
  intros A. destruct (accepts_atoms ops cfg its) as [l H]. rewrite H, A. cbn. apply andb_false_r.
Qed.

(** ** String output of well-formed streams *)

Lemma plain_string its : forallb plain its = true ->
  outcome (format_items ops cfg string_writer its (formatter_new [])) =
  (text (c_newline cfg) (layout (c_indentation cfg) (atoms ops its)), true).
Proof.
  intros P. rewrite format_plain by auto.
  destruct (run_string_new cfg (atoms ops its) []) as [st' [E1 E2]].
  unfold str in *. rewrite E1. unfold outcome; cbn. rewrite E2. reflexivity.
Qed.

Lemma doc_string ns : doc_ok ns = true ->
  outcome (format_items ops cfg string_writer (doc_items ns) (formatter_new [])) =
  (text (c_newline cfg) (layout (c_indentation cfg) (doc_atoms ops cfg ns)), true).
Proof.
  intros P. rewrite format_doc by auto.
  destruct (run_string_new cfg (doc_atoms ops cfg ns) []) as [st' [E1 E2]].
  unfold str in *. rewrite E1. unfold outcome; cbn. rewrite E2. reflexivity.
Qed.

End Accepts.

(** ** Files *)

Section Files.
Context {LI Config Format : Type} (L : lang_def LI Config Format) (cfg : config).

(** The streams of a file, one after the other, are laid out as one. *)
Lemma run_streams_docs {W} (wr : writer W) c (ts : list (tokens LI * Format * list (node LI))) st :
  Forall (fun p => items (fst (fst p)) = doc_items (snd p) /\ doc_ok (snd p) = true) ts ->
  format_streams L wr cfg c (map fst ts) st =
  run_atoms wr cfg
    (flat_map (fun p => doc_atoms (ld_ops L c (snd (fst p))) cfg (snd p)) ts) st.
Proof.
  intros H. revert st. induction H as [|[[t f] ns] ts [E1 E2] H IH]; intros st; [reflexivity|].
  cbn [map fst snd format_streams flat_map]. rewrite run_atoms_app.
  unfold format. cbn [fst snd] in *. rewrite E1, format_doc by auto.
  destruct (run_atoms wr cfg _ st) as [st' [|]]; cbn; auto.
Qed.

Lemma file_docs t c (ts : list (tokens LI * Format * list (node LI))) :
  ld_format_file L t c = map fst ts ->
  Forall (fun p => items (fst (fst p)) = doc_items (snd p) /\ doc_ok (snd p) = true) ts ->
  outcome (format_file L string_writer cfg t c (formatter_new [])) =
  (text (c_newline cfg) (layout (c_indentation cfg)
     (flat_map (fun p => doc_atoms (ld_ops L c (snd (fst p))) cfg (snd p)) ts))
   ++ c_newline cfg, true).
Proof.
  intros E H. unfold format_file. rewrite E, run_streams_docs by auto.
  match goal with |- context [run_atoms _ _ ?l _] =>
    destruct (run_string_new cfg l []) as [st' [E1 E2]] end.
  unfold str in *. rewrite E1. cbn. unfold outcome, write_trailing_line, on_write. cbn. rewrite E2. reflexivity.
Qed.

End Files.

(** ** Independence of the configuration *)

Section Independent.
Context {LI : Type} (ops : lang_ops LI) (c1 c2 : config).

Lemma node_simple_string e (ps : list (part LI)) :
  node_simple (NString e ps) = forallb part_simple ps.
Proof. reflexivity. Qed.
Lemma part_simple_eval (ns : list (node LI)) :
  part_simple (PEval ns) = forallb node_simple ns.
Proof. reflexivity. Qed.

Fixpoint node_atoms_cfg (n : node LI) :
  node_simple n = true -> node_atoms ops c1 n = node_atoms ops c2 n
with part_atoms_cfg (p : part LI) :
  part_simple p = true -> part_atoms ops c1 p = part_atoms ops c2 p.
Proof.
  - destruct n as [x|e ps]; [reflexivity|]. rewrite node_simple_string. intros H.
    rewrite !node_atoms_string. f_equal. f_equal.
    induction ps as [|p ps IH]; [reflexivity|].
    cbn [forallb] in H. apply andb_true_iff in H as [H1 H2].
    cbn [flat_map]. rewrite (part_atoms_cfg p H1), (IH H2). reflexivity.
  - destruct p as [x|xs|ns]; [reflexivity|discriminate|]. rewrite part_simple_eval. intros H.
    rewrite !part_atoms_eval. destruct (single_literal ns); [reflexivity|].
    f_equal. f_equal.
    induction ns as [|n ns IH]; [reflexivity|].
    cbn [forallb] in H. apply andb_true_iff in H as [H1 H2].
    cbn [flat_map]. rewrite (node_atoms_cfg n H1), (IH H2). reflexivity.
Qed.

Lemma doc_atoms_cfg (ns : list (node LI)) : forallb node_simple ns = true ->
  doc_atoms ops c1 ns = doc_atoms ops c2 ns.
Proof.
  induction ns as [|n ns IH]; [reflexivity|]. cbn [forallb]. intros H.
  apply andb_true_iff in H as [H1 H2]. unfold doc_atoms in *; cbn [flat_map].
  rewrite node_atoms_cfg, IH; auto.
Qed.
End Independent.

(** ** Any file *)

Section AnyFile.
Context {LI Config Format : Type} (L : lang_def LI Config Format) (cfg : config).

Lemma any_file t c : exists l : list atom,
  outcome (format_file L string_writer cfg t c (formatter_new [])) =
  (text (c_newline cfg) (layout (c_indentation cfg) l) ++
     (if streams_accept (ld_format_file L t c) then c_newline cfg else []),
   streams_accept (ld_format_file L t c)).
Proof.
  destruct (streams_atoms L cfg c (ld_format_file L t c)) as [l H]. exists l.
  unfold format_file. rewrite H.
  destruct (run_string_new cfg l []) as [st' [E1 E2]]. unfold str in *. rewrite E1. cbn [fst snd].
  cbn [andb]. destruct (streams_accept (ld_format_file L t c)); cbn.
  - unfold outcome, write_trailing_line, on_write. cbn. rewrite E2. reflexivity.
  - unfold outcome; cbn. rewrite E2, app_nil_r. reflexivity.
Qed.
End AnyFile.
