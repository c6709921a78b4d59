(** * Specification: several outputs through one writer or one formatter. *)
From Verif Require Import Str Tokens Fmt SpecFmt.

(** Something that is written with a formatter: a stream, or a file.
    Different languages may be mixed. *)
Inductive job : Type :=
| JFormat {LI C F} (L : lang_def LI C F) (c : C) (f : F) (t : tokens LI)
| JFile {LI C F} (L : lang_def LI C F) (c : C) (t : tokens LI).

(** [Tokens::format] or [Tokens::format_file] (src/tokens/tokens.rs:545-552,
    638-642) on a formatter. *)
Definition run_job {W} (wr : writer W) cfg (j : job) (st : fstate W) : fstate W * bool :=
  match j with
  | JFormat L c f t => format L wr cfg t c f st
  | JFile L c t => format_file L wr cfg t c st
  end.
(** Jobs one after the other on one formatter, until one fails. *)
Fixpoint run_jobs {W} (wr : writer W) cfg (js : list job) (st : fstate W) : fstate W * bool :=
  match js with
  | [] => (st, true)
  | j :: js' =>
      let '(st', ok) := run_job wr cfg j st in
      if ok then run_jobs wr cfg js' st' else (st', false)
  end.
(** Formatters one after the other on one writer ([as_formatter] of
    src/fmt/fmt_writer.rs:52-54, src/fmt/io_writer.rs:54-56,
    src/fmt/vec_writer.rs:56-58), each with a configuration and its jobs, until
    one fails. *)
Fixpoint run_session {W} (wr : writer W) (s : list (config * list job)) (w : W) : W * bool :=
  match s with
  | [] => (w, true)
  | (cfg, js) :: s' =>
      let '(w', ok) := outcome (run_jobs wr cfg js (formatter_new w)) in
      if ok then run_session wr s' w' else (w', false)
  end.

(** What a formatter writes to a string of its own. *)
Definition separate (p : config * list job) : str * bool :=
  outcome (run_jobs string_writer (fst p) (snd p) (formatter_new [])).
(** Outputs one after the other, up to the first that failed. *)
Fixpoint joined (outs : list (str * bool)) : str * bool :=
  match outs with
  | [] => ([], true)
  | (o, ok) :: r => if ok then (o ++ fst (joined r), snd (joined r)) else (o, false)
  end.

(** The lines a formatter writes to a vector of its own. *)
Definition separate_lines (p : config * list job) : list str :=
  into_vec (fst (outcome (run_jobs vec_writer (fst p) (snd p) (formatter_new vec_new)))).
(** Lines followed by lines, where the last of the former goes on with the
    first of the latter. *)
Fixpoint run_on (a b : list str) : list str :=
  match a with
  | [] => b
  | [x] => match b with [] => [x] | y :: b' => (x ++ y) :: b' end
  | x :: a' => x :: run_on a' b
  end.

(** What a job asks for, and whether it ends a file. *)
Inductive job_asks (cfg : config) : job -> list atom * bool -> Prop :=
| asks_format LI C F (L : lang_def LI C F) c f t doc :
    items t = doc_items doc -> doc_ok doc = true ->
    job_asks cfg (JFormat L c f t) (doc_atoms (ld_ops L c f) cfg doc, false)
| asks_file LI C F (L : lang_def LI C F) c t docs :
    Forall2 (fun p doc => items (fst p) = doc_items doc /\ doc_ok doc = true) (ld_format_file L t c) docs ->
    job_asks cfg (JFile L c t)
      (concat (map (fun p => doc_atoms (ld_ops L c (snd (fst p))) cfg (snd p))
                 (combine (ld_format_file L t c) docs)), true).

(** The output of jobs on one formatter: what is asked for is laid out as one
    stream up to the end of a file.  There a line ends, requests that are
    pending are dropped, and the level stays. *)
Fixpoint jobs_layout (ind : indentation_kind) (first : bool) (level : Z) (since : list atom)
    (asked : list (list atom * bool)) : list sym :=
  match asked with
  | [] => layout_from ind first level [] since
  | (l, false) :: r => jobs_layout ind first level (since ++ l) r
  | (l, true) :: r =>
      layout_from ind first level [] (since ++ l) ++ NL ::
      jobs_layout ind false (level + net (since ++ l)) [] r
  end.
