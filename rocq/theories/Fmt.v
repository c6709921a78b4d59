(** * The formatter and its writers.

    Models src/fmt/config.rs, src/fmt/mod.rs, src/fmt/fmt_writer.rs,
    src/fmt/io_writer.rs, src/fmt/vec_writer.rs, src/fmt/cursor.rs and
    src/fmt/formatter.rs. *)
From Verif Require Export Tokens.

(** src/fmt/config.rs:33-39 *)
Inductive indentation_kind : Type :=
| ISpace (n : nat)
| ITab.

(** src/fmt/config.rs:42-48; 51-75 are the constructors *)
Record config : Type := mk_config {
  c_indentation : indentation_kind;
  c_newline : str
}.

(** ** Writers *)

(** src/fmt/mod.rs:69-80, the trait [fmt::Write] (with its supertrait
    [core::fmt::Write]): a sink with state [W].  Every method returns the new
    state and whether it succeeded ([true] is [Ok(())], [false] is [Err]); a
    failing write may have changed the state. *)
Record writer (W : Type) : Type := mk_writer {
  w_str : str -> W -> W * bool;
  w_line : config -> W -> W * bool;
  w_trailing : config -> W -> W * bool
}.
Arguments w_str {W}. Arguments w_line {W}. Arguments w_trailing {W}.

(** src/fmt/fmt_writer.rs:62-85 over a [String]: text is appended; a line is
    the configured newline; the trailing line is the default of
    src/fmt/mod.rs:76-79 (a line). *)
Definition string_writer : writer str := {|
  w_str := fun s w => (w ++ s, true);
  w_line := fun c w => (w ++ c_newline c, true);
  w_trailing := fun c w => (w ++ c_newline c, true)
|}.

(** src/fmt/fmt_writer.rs:62-85 over an arbitrary [core::fmt::Write] sink,
    given by its [write_str]. *)
Definition fmt_writer {W} (sink : str -> W -> W * bool) : writer W := {|
  w_str := sink;
  w_line := fun c => sink (c_newline c);
  w_trailing := fun c => sink (c_newline c)
|}.

(** src/fmt/io_writer.rs:64-93 over an arbitrary [io::Write] sink, given by its
    [write_all] on bytes (errors are mapped to [fmt::Error]). *)
Definition io_writer {W} (write_all : list N -> W -> W * bool) : writer W := {|
  w_str := fun s => write_all (utf8 s);
  w_line := fun c => write_all (utf8 (c_newline c));
  w_trailing := fun c => write_all (utf8 (c_newline c))
|}.

(** src/fmt/vec_writer.rs:43-65: the lines completed so far and the line
    buffer. *)
Record vec_state : Type := mk_vec { v_target : list str; v_buffer : str }.
(** src/fmt/vec_writer.rs:43-65 ([Default], [new]) *)
Definition vec_new : vec_state := mk_vec [] [].
(** src/fmt/vec_writer.rs:61-64 *)
Definition into_vec (v : vec_state) : list str := v_target v ++ [v_buffer v].
(** src/fmt/vec_writer.rs:67-91; the trailing line is ignored. *)
Definition vec_writer : writer vec_state := {|
  w_str := fun s v => (mk_vec (v_target v) (v_buffer v ++ s), true);
  w_line := fun _ v => (mk_vec (v_target v ++ [v_buffer v]) [], true);
  w_trailing := fun _ v => (v, true)
|}.

(** ** Formatter state *)

(** src/fmt/formatter.rs:17-23 *)
Inductive whitespace : Type := WInitial | WNone | WPush | WLine.

(** src/fmt/formatter.rs:30-37: number of line breaks to write; [None] means
    that neither lines nor indentation are written. *)
Definition into_indent (w : whitespace) : option nat :=
  match w with
  | WInitial => Some 0
  | WPush => Some 1
  | WLine => Some 2
  | WNone => None
  end.

(** src/fmt/formatter.rs:48-63; the configuration is passed separately.
    [spaces] is a usize in the code. *)
Record fstate (W : Type) : Type := mk_fstate {
  f_write : W;
  f_line : whitespace;
  f_spaces : nat;
  f_indent : Z
}.
Arguments mk_fstate {W}. Arguments f_write {W}. Arguments f_line {W}.
Arguments f_spaces {W}. Arguments f_indent {W}.

Section Formatter.
Context {W : Type} (wr : writer W) (cfg : config).
Implicit Types st : fstate W.

(** src/fmt/formatter.rs:67-75 *)
Definition formatter_new (w : W) : fstate W := mk_fstate w WInitial 0 0%Z.

(** Assignment to the field [write] (src/fmt/formatter.rs:48-63). *)
Definition with_write st (w : W) : fstate W :=
  mk_fstate w (f_line st) (f_spaces st) (f_indent st).

(** A call on the underlying writer. *)
Definition on_write (f : W -> W * bool) st : fstate W * bool :=
  let '(w, ok) := f (f_write st) in (with_write st w, ok).

(** The [?] operator: continue only after success. *)
Definition and_then (r : fstate W * bool) (k : fstate W -> fstate W * bool)
  : fstate W * bool :=
  let '(st, ok) := r in if ok then k st else (st, false).

(** src/fmt/formatter.rs:94-99 *)
Definition write_trailing_line st : fstate W * bool :=
  on_write (w_trailing wr cfg)
    (mk_fstate (f_write st) WNone 0 (f_indent st)).

(** src/fmt/formatter.rs:111-119 *)
Definition f_push st : fstate W :=
  match f_line st with
  | WInitial | WLine => st
  | _ => mk_fstate (f_write st) WPush 0 (f_indent st)
  end.

(** src/fmt/formatter.rs:122-129 *)
Definition f_do_line st : fstate W :=
  match f_line st with
  | WInitial => st
  | _ => mk_fstate (f_write st) WLine 0 (f_indent st)
  end.

(** src/fmt/formatter.rs:132-134 *)
Definition f_space st : fstate W :=
  mk_fstate (f_write st) (f_line st) (S (f_spaces st)) (f_indent st).

(** src/fmt/formatter.rs:137-140 *)
Definition f_indentation (n : Z) st : fstate W :=
  let st := f_push st in
  mk_fstate (f_write st) (f_line st) (f_spaces st) (f_indent st + n)%Z.

(** src/fmt/formatter.rs:278-280: [lines] line breaks. *)
Fixpoint write_lines (lines : nat) st : fstate W * bool :=
  match lines with
  | O => (st, true)
  | S k => and_then (on_write (w_line wr cfg) st) (write_lines k)
  end.

(** src/fmt/formatter.rs:291-295 and 300-304: write [n] copies of [c] in chunks
    of at most [chunk] (the length of the static buffers TABS and SPACES).  The
    fuel is the number of remaining characters, which decreases with every
    chunk. *)
Fixpoint write_padding (fuel : nat) (chunk : nat) (c : N) (n : nat) st
  : fstate W * bool :=
  match fuel with
  | O => (st, true)
  | S f =>
      match n with
      | O => (st, true)
      | _ =>
          let len := Nat.min n chunk in
          and_then (on_write (w_str wr (repeat c len)) st)
            (write_padding f chunk c (n - len))
      end
  end.

(** src/fmt/formatter.rs:11-15: lengths of the static buffers. *)
Definition spaces_len : nat := 100.
(** src/fmt/formatter.rs:14-15 *)
Definition tabs_len : nat := 40.

(** src/fmt/formatter.rs:274-307 *)
Definition flush_whitespace st : fstate W * bool :=
  let spaces := f_spaces st in
  let ws := f_line st in
  let st := mk_fstate (f_write st) WNone 0 (f_indent st) in
  match into_indent ws with
  | Some lines =>
      and_then (write_lines lines st) (fun st =>
        let level := Z.to_nat (Z.max (f_indent st) 0) in
        match c_indentation cfg with
        | ISpace n =>
            let total := spaces + level * n in
            write_padding total spaces_len 32 total st
        | ITab =>
            and_then (write_padding level tabs_len 9 level st) (fun st =>
              write_padding spaces spaces_len 32 spaces st)
        end)
  | None => write_padding spaces spaces_len 32 spaces st
  end.

(** src/fmt/formatter.rs:102-109 and 310-318 *)
Definition write_str (s : str) st : fstate W * bool :=
  match s with
  | [] => (st, true)
  | _ =>
      and_then (flush_whitespace st) (fun st => on_write (w_str wr s) st)
  end.

(** A sequence of [write_str]/[write_char]/[write!] calls by language code.
    Language code can only use the [core::fmt::Write] interface of the
    formatter (its other methods are private), so what it does is fully
    described by the strings it writes.  A [write!] with several arguments is
    modelled as one string. *)
Fixpoint write_all_strs (ss : list str) st : fstate W * bool :=
  match ss with
  | [] => (st, true)
  | s :: ss' => and_then (write_str s st) (write_all_strs ss')
  end.

End Formatter.

(** ** Languages, as seen by the formatter *)

(** src/lang/mod.rs:51-134 and 162-174 ([Lang], [LangItem]), with the
    language's [Config] and [Format] already supplied: the strings each method
    writes.  None of the built-in languages fails by itself. *)
Record lang_ops (LI : Type) : Type := mk_ops {
  l_open_quote : bool -> list str;
  l_close_quote : bool -> list str;
  l_string_eval_literal : str -> list str;
  l_start_string_eval : list str;
  l_end_string_eval : list str;
  l_write_quoted : str -> list str;
  l_format_item : LI -> list str
}.
Arguments mk_ops {LI}.
Arguments l_open_quote {LI}. Arguments l_close_quote {LI}.
Arguments l_string_eval_literal {LI}. Arguments l_start_string_eval {LI}.
Arguments l_end_string_eval {LI}. Arguments l_write_quoted {LI}.
Arguments l_format_item {LI}.

(** src/fmt/formatter.rs:243-248 *)
Record frame : Type := mk_frame {
  in_quote : bool;
  has_eval : bool;
  end_on_eval : bool
}.

Section Cursor.
Context {LI : Type} (ops : lang_ops LI) (cfg : config).

(** src/fmt/formatter.rs:143-249 ([format_cursor]) together with 252-270
    ([quoted_quote], the [OpenQuote false] inside a quote).  The cursor
    (src/fmt/cursor.rs:66-120) is the list of remaining items; the result also
    returns what is left of it.  The top of the frame stack is the head of
    [stack].

    The fuel is the number of loop iterations allowed; with more fuel than
    items it is never exhausted (theorem [format_fuel] in [FmtFacts.v]).
    Exhaustion is reported as a failure. *)
Fixpoint format_cursor (fuel : nat) (W : Type) (wr : writer W)
    (end_on_close_quote : bool) (stack : list frame)
    (cursor : list (item LI)) (st : fstate W)
    : fstate W * list (item LI) * bool :=
  match fuel with
  | O => (st, cursor, false)
  | S fuel =>
    match cursor with
    | [] => (st, [], true)
    | it :: rest =>
      match stack with
      | [] => (st, rest, true)
      | head :: below =>
        (* continue the loop after [?] on the result of an action *)
        let next (stack : list frame) (rest : list (item LI))
                 (r : fstate W * bool) :=
          let '(st, ok) := r in
          if ok then format_cursor fuel W wr end_on_close_quote stack rest st
          else (st, rest, false) in
        match it with
        | Register _ _ => next stack rest (st, true)
        | Literal s =>
            next stack rest
              (if in_quote head
               then write_all_strs wr cfg (l_write_quoted ops (content s)) st
               else write_str wr cfg (content s) st)
        | OpenQuote e =>
            if negb (in_quote head) then
              next (mk_frame true e (end_on_eval head) :: below) rest
                (write_all_strs wr cfg (l_open_quote ops e) st)
            else if negb e then
              (* quoted_quote: a fresh formatter on a string buffer *)
              match write_all_strs string_writer cfg (l_open_quote ops false)
                      (formatter_new []) with
              | (out, false) => (st, rest, false)
              | (out, true) =>
                match format_cursor fuel str string_writer true
                        [mk_frame false false false] rest out with
                | (out, rest, false) => (st, rest, false)
                | (out, rest, true) =>
                  match write_all_strs string_writer cfg
                          (l_close_quote ops false) out with
                  | (out, false) => (st, rest, false)
                  | (out, true) =>
                      next stack rest
                        (write_all_strs wr cfg
                           (l_write_quoted ops (f_write out)) st)
                  end
                end
              end
            else (st, rest, false)
        | CloseQuote =>
            if end_on_close_quote then (st, rest, true)
            else if in_quote head then
              next (mk_frame false false (end_on_eval head) :: below) rest
                (write_all_strs wr cfg (l_close_quote ops (has_eval head)) st)
            else (st, rest, false)
        | Lang _ l =>
            next stack rest (write_all_strs wr cfg (l_format_item ops l) st)
        | Push => next stack rest (f_push st, true)
        | Line => next stack rest (f_do_line st, true)
        | Space => next stack rest (f_space st, true)
        | Indentation n =>
            if Z.eqb n 0 then next stack rest (st, true)
            else next stack rest (f_indentation n st, true)
        | OpenEval =>
            if in_quote head then
              match rest with
              | Literal s :: CloseEval :: rest' =>
                  next stack rest'
                    (write_all_strs wr cfg
                       (l_string_eval_literal ops (content s)) st)
              | _ =>
                  next (mk_frame false false true :: stack) rest
                    (write_all_strs wr cfg (l_start_string_eval ops) st)
              end
            else (st, rest, false)
        | CloseEval =>
            if end_on_eval head then
              next below rest
                (write_all_strs wr cfg (l_end_string_eval ops) st)
            else (st, rest, false)
        end
      end
    end
  end.

(** src/fmt/formatter.rs:78-89 ([format_items]), which is all that
    [Tokens::format] (src/tokens/tokens.rs:545-552) calls. *)
Definition format_items {W : Type} (wr : writer W) (its : list (item LI))
    (st : fstate W) : fstate W * bool :=
  let '(st, _, ok) :=
    format_cursor (S (length its)) W wr false [mk_frame false false false]
      its st in
  (st, ok).

End Cursor.

(** ** A language with its file format *)

(** A language: the formatter's view of it for a configuration and a format
    state, and its [format_file] (src/lang/mod.rs:125-133), given as the list
    of streams that are formatted one after the other on the same formatter,
    each with its format state.  All built-in languages have this shape: a
    header stream and a body stream, or a single stream. *)
Record lang_def (LI Config Format : Type) : Type := mk_lang {
  ld_indentation : indentation_kind;
  ld_ops : Config -> Format -> lang_ops LI;
  ld_default_config : Config;
  ld_default_format : Format;
  ld_format_file : tokens LI -> Config -> list (tokens LI * Format)
}.
Arguments mk_lang {LI Config Format}.
Arguments ld_indentation {LI Config Format}. Arguments ld_ops {LI Config Format}.
Arguments ld_default_config {LI Config Format}.
Arguments ld_default_format {LI Config Format}.
Arguments ld_format_file {LI Config Format}.

Section File.
Context {LI Config Format : Type} (L : lang_def LI Config Format).
Context {W : Type} (wr : writer W) (cfg : config).

(** src/tokens/tokens.rs:545-552 *)
Definition format (t : tokens LI) (c : Config) (f : Format) (st : fstate W)
  : fstate W * bool :=
  format_items (ld_ops L c f) cfg wr (items t) st.

(** The language's [format_file]: format each stream in turn. *)
Fixpoint format_streams (c : Config) (ts : list (tokens LI * Format))
    (st : fstate W) : fstate W * bool :=
  match ts with
  | [] => (st, true)
  | (t, f) :: ts' => and_then (format t c f st) (format_streams c ts')
  end.

(** src/tokens/tokens.rs:638-642 *)
Definition format_file (t : tokens LI) (c : Config) (st : fstate W)
  : fstate W * bool :=
  and_then (format_streams c (ld_format_file L t c) st)
    (write_trailing_line wr cfg).

End File.

Section Outputs.
Context {LI Config Format : Type} (L : lang_def LI Config Format).

(** src/fmt/config.rs:53-61 *)
Definition config_from_lang : config := mk_config (ld_indentation L) [10%N].

(** [Ok] or [Err] of a finished run, with the value read off the writer (src/tokens/tokens.rs:751-864). *)
Definition result {W A} (get : W -> A) (r : fstate W * bool) : option A :=
  let '(st, ok) := r in if ok then Some (get (f_write st)) else None.

(** src/tokens/tokens.rs:751-759 *)
Definition to_string (t : tokens LI) : option str :=
  result (fun s => s)
    (format L string_writer config_from_lang t (ld_default_config L)
       (ld_default_format L) (formatter_new [])).

(** src/tokens/tokens.rs:856-864 *)
Definition to_vec (t : tokens LI) : option (list str) :=
  result into_vec
    (format L vec_writer config_from_lang t (ld_default_config L)
       (ld_default_format L) (formatter_new vec_new)).

(** src/tokens/tokens.rs:716-723 *)
Definition to_file_string (t : tokens LI) : option str :=
  result (fun s => s)
    (format_file L string_writer config_from_lang t (ld_default_config L)
       (formatter_new [])).

(** src/tokens/tokens.rs:818-825 *)
Definition to_file_vec (t : tokens LI) : option (list str) :=
  result into_vec
    (format_file L vec_writer config_from_lang t (ld_default_config L)
       (formatter_new vec_new)).

End Outputs.

(** ** Default methods of the [Lang] trait *)

(** src/lang/mod.rs:66-122: defaults for a language without overrides, with
    the item formatter supplied. *)
Definition default_quote : list str := [[34%N]].
(** src/lang/mod.rs:66-122 *)
Definition default_ops {LI} (fmt_item : LI -> list str) : lang_ops LI := {|
  l_open_quote := fun _ => default_quote;
  l_close_quote := fun _ => default_quote;
  l_string_eval_literal := fun s => [s];
  l_start_string_eval := [];
  l_end_string_eval := [];
  l_write_quoted := fun s => [s];
  l_format_item := fmt_item
|}.

(** src/lang/mod.rs:142-156: the dummy language [()]. *)
Definition unit_lang : lang_def unit unit unit := {|
  ld_indentation := ISpace 4;
  ld_ops := fun _ _ => default_ops (fun _ => []);
  ld_default_config := tt;
  ld_default_format := tt;
  ld_format_file := fun t _ => [(t, tt)]
|}.

(* sanity checks *)
Example fmt_ex1 :
  to_string unit_lang (from_iter
    [Literal (Box $"foo"); Push; Literal (Box $"bar"); Line; Indentation 1;
     Literal (Box $"baz"); Space; Literal (Box $"biz"); Indentation (-1);
     Line; Literal (Box $"}"); Line])
  = Some ($"foo" ++ [10%N] ++ $"bar" ++ [10%N] ++ $"    baz biz"
          ++ [10%N; 10%N] ++ $"}").
Proof. vm_compute. reflexivity. Qed.
