(** * Running histories of calls on token streams. *)
From Verif Require Import Tokens SpecTokens.

Section Run.
Context {LI : Type}.

(** Each public call is executed by the function of [Tokens.v] that models it:
    src/tokens/tokens.rs:201 (extend), 309 (space), 347 (push), 395 (line),
    442 (indent), 492 (unindent), 572 (item) and
    src/tokens/format_into.rs:54-85 (appending a stream). *)
Fixpoint run_call (c : call LI) (t : tokens LI) : tokens LI :=
  match c with
  | CItem x => add_item x t
  | CSpace => space t
  | CPush => push t
  | CLine => line t
  | CIndent => indent t
  | CUnindent => unindent t
  | CExtend xs => extend xs t
  | CAppend cs =>
      append_tokens (fold_left (fun b c => run_call c b) cs new) t
  end.

(** Calls one after another. *)
Definition run (cs : list (call LI)) (t : tokens LI) : tokens LI :=
  fold_left (fun t c => run_call c t) cs t.

(** A stream built from scratch. *)
Definition build (cs : list (call LI)) : tokens LI := run cs new.

End Run.
