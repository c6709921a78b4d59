(** * The quoting macros.

    Models genco-macros/src/encoder.rs, string_parser.rs, static_buffer.rs,
    cursor.rs, requirements.rs, lib.rs, quote_in.rs, quote_fn.rs and the parts of
    quote.rs that drive the encoder.

    Starts from the elements of a quote with their source positions, which
    [Parse.v] reads from the input.  Not modelled: spans used only for
    diagnostics, and error messages (a rejected input is [None]).  Line and column
    of each token are given; [Fake.v] models where they come from on compilers that
    do not tell.

    Rust expressions in a quote are functions on an abstract environment [E],
    which they may change.  Simplifications: names are not shadowed (leaving a
    block restores nothing; [Scope.v] models scopes), iterators do not interleave effects with the loop
    body (they are given by the list of their elements), and expressions neither
    diverge nor leave the quote ([return], [?], [break], panics). *)
From Verif Require Import Str Tokens SpecTokens TokensRun Values.

Section Macro.
Context {LI E : Type}.

(** A Rust expression in a quote: a value and a change of the environment. *)
Definition expr (A : Type) : Type := E -> A * E.

(** ** Source *)

(** genco-macros/src/fake.rs:11-18 *)
Record pos : Type := mk_pos { p_line : nat; p_col : nat }.
(** genco-macros/src/cursor.rs:6-13 *)
Record cursor : Type := mk_cursor { c_start : pos; c_end : pos }.
(** genco-macros/src/cursor.rs:21-43 *)
Definition first_character (c : cursor) : cursor :=
  mk_cursor (c_start c) (mk_pos (p_line (c_start c)) (p_col (c_start c) + 1)).
(** genco-macros/src/cursor.rs:33-43 *)
Definition last_character (c : cursor) : cursor :=
  mk_cursor (mk_pos (p_line (c_end c)) (p_col (c_end c) - 1)) (c_end c).

(** genco-macros/src/ast.rs:16-22 *)
Inductive delimiter : Type := Parenthesis | Brace | Bracket.
(** genco-macros/src/ast.rs:24-44 *)
Definition open_char (d : delimiter) : str :=
  match d with Parenthesis => $"(" | Brace => $"{" | Bracket => $"[" end.
(** genco-macros/src/ast.rs:24-44 *)
Definition close_char (d : delimiter) : str :=
  match d with Parenthesis => $")" | Brace => $"}" | Bracket => $"]" end.
(** genco-macros/src/ast.rs:93-98 *)
Inductive control : Type := KSpace | KPush | KLine.

(** An element of a quote, as recognized by quote.rs:336-472 ([parse_inner]) and
    288-334 ([parse_expression]).  A loop's elements and the arms of a match are
    given by the bindings they make. *)
Inductive quoted_item : Type :=
| QText (c : cursor) (s : str)                  (* a token that is no group *)
| QDollar (c : cursor)                          (* $$ *)
| QLiteral (c : cursor) (s : str)               (* $("..") *)
| QQuoted (c : cursor) (s : str)                (* ".." *)
| QGroup (c : cursor) (d : delimiter) (qs : list quoted_item)
| QString (c : cursor) (paren : cursor) (ps : list string_item)   (* $[str](..) *)
| QControl (c : cursor) (k : control)           (* $[' '], $['\r'], $['\n'] *)
| QEval (c : cursor) (v : expr (value LI))      (* $x, $(..) *)
| QScope (c : cursor) (code : expr (list (call LI)))   (* $(ref x => ..) *)
| QEffect (c : cursor) (f : E -> E)  (* $(ref _ => ..): the stream has no name there *)
| QLoop (c : cursor) (it : expr (list (E -> E)))
    (join : option (cursor * list quoted_item)) (body : list quoted_item)
                                                (* $(for x in it join (..) => ..) *)
| QIf (c : cursor) (cond : expr bool) (a : list quoted_item)
    (b : option (list quoted_item))             (* $(if ..) *)
| QMatch (c : cursor) (sel : expr nat) (arms : list (option cursor * list quoted_item))
                                (* $(match ..); a cursor if the arm is in parentheses *)
| QLet (c : cursor) (f : E -> E)                (* $(let x = ..) *)
(** An element of an interpolated string (string_parser.rs:234-309). *)
with string_item : Type :=
| PText (c : cursor) (s : str)                  (* a token *)
| PDollar (c : cursor)                          (* $$ *)
| PConstLit (c : cursor) (s : str)              (* $[const]("..") *)
| PConst (c : cursor) (v : expr (value LI))     (* $[const](..) *)
| PIdent (c : cursor) (name : str)              (* $x *)
| PEval (c : cursor) (qs : list quoted_item).   (* $(..) *)

Definition cursor_of (x : quoted_item) : cursor :=
  match x with
  | QText c _ | QDollar c | QLiteral c _ | QQuoted c _ | QGroup c _ _ | QString c _ _
  | QControl c _ | QEval c _ | QScope c _ | QEffect c _ | QLoop c _ _ _ | QIf c _ _ _
  | QMatch c _ _ | QLet c _ => c
  end.
(** The first token of an element: a dollar sign for all forms of expressions, the
    delimiter of a group. *)
Definition first_token (x : quoted_item) : cursor :=
  match x with
  | QText c _ | QQuoted c _ => c
  | _ => first_character (cursor_of x)
  end.
(** [content.span()] of the parenthesis of a [$(..)] that ends at [close]: the
    span of the next token (string_parser.rs:290, [syn::ParseBuffer::span]), of a
    group its opening delimiter; at the end of the input, of the closing
    delimiter. *)
Definition content_span (close : cursor) (qs : list quoted_item) : cursor :=
  match qs with
  | x :: _ => first_token x
  | [] => last_character close
  end.

(** ** Generated code *)

Inductive stmt : Type :=
| SStatic (s : str)                     (* receiver.append(ItemStr::Static(s)) *)
| SItem (x : item LI)                   (* receiver.append(item) *)
| SAppend (v : expr (value LI))         (* receiver.append(expr) *)
| SSpace | SPush | SLine | SIndent | SUnindent
| SCode (code : expr (list (call LI)))  (* { let x = &mut *receiver; .. } *)
| SEffect (f : E -> E)                  (* { .. } *)
| SFor (it : expr (list (E -> E))) (body : list stmt)
| SForJoin (it : expr (list (E -> E))) (body join : list stmt)
| SIf (cond : expr bool) (a : list stmt) (b : option (list stmt))
| SMatch (sel : expr nat) (arms : list (list stmt))
| SLet (f : E -> E).

(** ** The encoder *)

Definition fold_opt {A S : Type} (f : A -> S -> option S) : list A -> S -> option S :=
  fix go (l : list A) (s : S) : option S :=
    match l with
    | [] => Some s
    | x :: l' => match f x s with Some s' => go l' s' | None => None end
    end.
(** The operator [?]. *)
Definition bind {A B} (o : option A) (f : A -> option B) : option B :=
  match o with Some x => f x | None => None end.

(** genco-macros/src/encoder.rs:12-38.  Of an indentation column only the column
    is kept, the stack has its top first.  [req] is [requirements]
    (requirements.rs:4-6). *)
Record encoder : Type := mk_encoder {
  e_span_start : option pos;
  e_span_end : option pos;
  e_buffer : str;
  e_output : list stmt;
  e_last : option cursor;
  e_last_start_column : option nat;
  e_indents : list nat;
  e_req : bool
}.

(** genco-macros/src/encoder.rs:41-57 *)
Definition encoder_new (span_start span_end : option pos) : encoder :=
  mk_encoder span_start span_end [] [] None None [] false.

(** [self.output.extend(..)] *)
Definition emit (out : list stmt) (s : encoder) : encoder :=
  mk_encoder (e_span_start s) (e_span_end s) (e_buffer s) (e_output s ++ out) (e_last s)
    (e_last_start_column s) (e_indents s) (e_req s).
(** genco-macros/src/static_buffer.rs:21-28 *)
Definition buffer_push (t : str) (s : encoder) : encoder :=
  mk_encoder (e_span_start s) (e_span_end s) (e_buffer s ++ t) (e_output s) (e_last s)
    (e_last_start_column s) (e_indents s) (e_req s).
(** genco-macros/src/static_buffer.rs:30-39 *)
Definition flush (s : encoder) : encoder :=
  match e_buffer s with
  | [] => s
  | t =>
      mk_encoder (e_span_start s) (e_span_end s) [] (e_output s ++ [SStatic t]) (e_last s)
        (e_last_start_column s) (e_indents s) (e_req s)
  end.
(** genco-macros/src/requirements.rs:9-12 *)
Definition require (b : bool) (s : encoder) : encoder :=
  mk_encoder (e_span_start s) (e_span_end s) (e_buffer s) (e_output s) (e_last s)
    (e_last_start_column s) (e_indents s) (e_req s || b).
(** Assignment to [last] (genco-macros/src/encoder.rs:12-38). *)
Definition set_last (c : cursor) (s : encoder) : encoder :=
  mk_encoder (e_span_start s) (e_span_end s) (e_buffer s) (e_output s) (Some c)
    (e_last_start_column s) (e_indents s) (e_req s).
(** Assignment to [span_end], likewise. *)
Definition set_span_end (o : option pos) (s : encoder) : encoder :=
  mk_encoder (e_span_start s) o (e_buffer s) (e_output s) (e_last s)
    (e_last_start_column s) (e_indents s) (e_req s).
(** Assignment to [last_start_column], likewise. *)
Definition set_column (o : option nat) (s : encoder) : encoder :=
  mk_encoder (e_span_start s) (e_span_end s) (e_buffer s) (e_output s) (e_last s)
    o (e_indents s) (e_req s).
(** Assignment to [indents], likewise. *)
Definition set_indents (l : list nat) (s : encoder) : encoder :=
  mk_encoder (e_span_start s) (e_span_end s) (e_buffer s) (e_output s) (e_last s)
    (e_last_start_column s) l (e_req s).

(** genco-macros/src/encoder.rs:318-352 *)
Definition from (s : encoder) : option pos * encoder :=
  match e_span_start s with
  | Some p =>
      (Some p, mk_encoder None (e_span_end s) (e_buffer s) (e_output s) (e_last s)
                 (Some (p_col p)) (e_indents s) (e_req s))
  | None =>
      match e_last s with
      | Some last =>
          (Some (c_end last),
           match e_last_start_column s with
           | None => set_column (Some (p_col (c_start last))) s
           | Some _ => s
           end)
      | None => (None, s)
      end
  end.

(** genco-macros/src/encoder.rs:418-438: the loop that pops indentation
    columns. *)
Fixpoint pop_indents (line : bool) (col : nat) (stack : list nat)
  : option (list nat * list stmt) :=
  match stack with
  | [] => Some ([], [])
  | c :: rest =>
      if (col <? c) && negb (match rest with [] => true | _ => false end) then
        match pop_indents line col rest with
        | Some (rest', out) =>
            Some (rest', SUnindent :: (if line then [SLine] else []) ++ out)
        | None => None
        end
      else if c =? col then Some (rest, SUnindent :: (if line then [SLine] else []))
      else None
  end.

(** genco-macros/src/encoder.rs:377-446.  [debug_assert!(from.line < to.line)]
    rejects. *)
Definition tokenize_whitespace (frm to : pos) (s : encoder) : option encoder :=
  if (p_line frm =? p_line to) && (p_col frm =? p_col to) then Some s
  else if p_line frm =? p_line to then
    Some (if p_col frm <? p_col to then emit [SSpace] (flush s) else s)
  else
    let s := flush s in
    if p_line to <? p_line frm then None
    else
      let line := 1 <? p_line to - p_line frm in
      match e_last_start_column s with
      | None => Some s
      | Some col =>
          let s := set_column None s in
          if col <? p_col to then
            Some (emit (SIndent :: if line then [SLine] else [])
                    (set_indents (col :: e_indents s) s))
          else if p_col to <? col then
            match pop_indents line (p_col to) (e_indents s) with
            | Some (rest, out) => Some (emit out (set_indents rest s))
            | None => None
            end
          else Some (emit [if line then SLine else SPush] s)
      end.

(** genco-macros/src/encoder.rs:133-143 *)
Definition step (next : cursor) (s : encoder) : option encoder :=
  let '(f, s) := from s in
  match
    match f with
    | Some frm => tokenize_whitespace frm (c_start next) s
    | None => Some s
    end
  with
  | Some s => Some (set_last next s)
  | None => None
  end.

(** genco-macros/src/encoder.rs:354-373 and 127-131 ([into_output]). *)
Definition finalize (s : encoder) : option (bool * list stmt) :=
  bind
    (match e_span_end s with
     | Some to =>
         let '(f, s) := from (set_span_end None s) in
         match f with
         | Some frm => tokenize_whitespace frm to s
         | None => Some s
         end
     | None => Some s
     end)
    (fun s =>
       let s := flush s in
       Some (e_req s, e_output s ++ map (fun _ => SUnindent) (e_indents s))).

(** genco-macros/src/encoder.rs:181-200 *)
Definition control_stmt (k : control) : stmt :=
  match k with KSpace => SSpace | KPush => SPush | KLine => SLine end.

(** ** The string encoder *)

(** genco-macros/src/string_parser.rs:39-47 *)
Record sencoder : Type := mk_sencoder {
  s_cursor : option pos;
  s_buf : str;
  s_stream : list stmt;
  s_has_eval : bool;
  s_req : bool
}.
(** genco-macros/src/string_parser.rs:50-60 *)
Definition sencoder_new (start : pos) : sencoder := mk_sencoder (Some start) [] [] false false.

(** genco-macros/src/string_parser.rs:186-207 *)
Definition flush_whitespace (frm to : option pos) (s : sencoder) : option sencoder :=
  let done buf := Some (mk_sencoder to buf (s_stream s) (s_has_eval s) (s_req s)) in
  match frm, s_cursor s with
  | Some f, Some c =>
      if negb (p_line c =? p_line f) then None
      else done (s_buf s ++ repeat 32%N (p_col f - p_col c))
  | _, _ => done (s_buf s)
  end.
(** genco-macros/src/string_parser.rs:160-184 *)
Definition sflush (frm to : option pos) (s : sencoder) : option sencoder :=
  bind (flush_whitespace frm to s) (fun s =>
    match s_buf s with
    | [] => Some s
    | t => Some (mk_sencoder (s_cursor s) [] (s_stream s ++ [SStatic t]) (s_has_eval s) (s_req s))
    end).
(** genco-macros/src/string_parser.rs:67-86 ([encode_char], [encode_str]) and
    149-158 ([extend_tt]). *)
Definition encode_str (t : str) (c : cursor) (s : sencoder) : option sencoder :=
  bind (flush_whitespace (Some (c_start c)) (Some (c_end c)) s) (fun s =>
    Some (mk_sencoder (s_cursor s) (s_buf s ++ t) (s_stream s) (s_has_eval s) (s_req s))).
(** genco-macros/src/string_parser.rs:88-147 ([eval_ident], [eval_stream],
    [raw_expr]): flush, then emit. *)
Definition semit (out : list stmt) (eval : bool) (req : bool) (c : cursor) (s : sencoder)
  : option sencoder :=
  bind (sflush (Some (c_start c)) (Some (c_end c)) s) (fun s =>
    Some (mk_sencoder (s_cursor s) (s_buf s) (s_stream s ++ out) (s_has_eval s || eval)
            (s_req s || req))).

(** genco-macros/src/quote.rs:56-77 ([with_span]): one character pulled in at each
    end. *)
Definition inner_start (c : cursor) : pos := mk_pos (p_line (c_start c)) (p_col (c_start c) + 1).
(** genco-macros/src/quote.rs:56-77 *)
Definition inner_end (c : cursor) : pos := mk_pos (p_line (c_end c)) (p_col (c_end c) - 1).

(** quote.rs:79-84: a quote, given how its elements are encoded. *)
Definition block_with (enc : quoted_item -> encoder -> option encoder)
    (span : option cursor) (qs : list quoted_item) : option (bool * list stmt) :=
  bind (fold_opt enc qs
          (encoder_new (option_map inner_start span) (option_map inner_end span)))
    finalize.

(** [parse_inner], [parse_expression], [parse_group] (quote.rs:288-334, 336-491),
    [encode] (encoder.rs:60-125) and the functions it calls (145-316); the string
    parser (string_parser.rs:234-309). *)
Fixpoint encode (x : quoted_item) (s : encoder) : option encoder :=
  match x with
  | QText c t | QLiteral c t =>                          (* encoder.rs:64-66, 74-76 *)
      bind (step c s) (fun s => Some (buffer_push t s))
  | QDollar c =>                                         (* quote.rs:347-356 *)
      bind (step c s) (fun s => Some (buffer_push $"$" s))
  | QQuoted c t =>                                       (* encoder.rs:169-179 *)
      bind (step c s) (fun s =>
        Some (emit [SItem (OpenQuote false); SAppend (fun e => (VItemStr (Static t), e));
                    SItem CloseQuote] (flush s)))
  | QGroup c d qs =>                                     (* quote.rs:474-491 *)
      bind (step (first_character c) s) (fun s =>
      bind (fold_opt encode qs (buffer_push (open_char d) s)) (fun s =>
      bind (step (last_character c) s) (fun s =>
        Some (buffer_push (close_char d) s))))
  | QString c paren ps =>                                (* quote.rs:366-381, encoder.rs:67-70, 157-167 *)
      bind (bind (fold_opt sencode ps (sencoder_new (inner_start paren)))
                 (sflush (Some (inner_end paren)) None)) (fun r =>
      bind (step c (require (s_req r) s)) (fun s =>
        Some (emit (SItem (OpenQuote (s_has_eval r)) :: s_stream r ++ [SItem CloseQuote])
                (flush (require (s_has_eval r) s)))))
  | QControl c k =>                                      (* encoder.rs:181-200 *)
      bind (step c s) (fun s => Some (emit [control_stmt k] (flush s)))
  | QEval c v =>                                         (* encoder.rs:217-235 *)
      bind (step c s) (fun s => Some (emit [SAppend v] (flush s)))
  | QScope c code =>                                     (* encoder.rs:202-215 *)
      bind (step c s) (fun s => Some (emit [SCode code] (flush s)))
  | QEffect c f =>                          (* encoder.rs:202-215: no flush *)
      bind (step c s) (fun s => Some (emit [SEffect f] s))
  | QLoop c it join body =>                              (* quote.rs:137-186, encoder.rs:237-267 *)
      bind (match join with
            | Some (paren, js) =>
                bind (block_with encode (Some paren) js) (fun r => Some (Some r))
            | None => Some None
            end) (fun j =>
      bind (block_with encode None body) (fun b =>
      bind (step c (require (match j with Some (r, _) => r | None => false end || fst b) s))
        (fun s =>
        Some (emit [match j with
                    | Some (_, js) => SForJoin it (snd b) js
                    | None => SFor it (snd b)
                    end] (flush s)))))
  | QIf c cond a b =>                                    (* quote.rs:86-135, encoder.rs:269-283 *)
      bind (block_with encode None a) (fun a =>
      bind (match b with
            | Some qs => bind (block_with encode None qs) (fun r => Some (Some r))
            | None => Some None
            end) (fun b =>
      bind (step c (require (fst a || match b with Some (r, _) => r | None => false end) s))
        (fun s =>
        Some (emit [SIf cond (snd a) (option_map snd b)] (flush s)))))
  | QMatch c sel arms =>                                 (* quote.rs:188-245, encoder.rs:285-307 *)
      bind (fold_opt (fun arm acc =>
              let '(paren, qs) := arm in
              bind (block_with encode paren qs) (fun r =>
                Some (fst acc || fst r, snd acc ++ [snd r]))) arms (false, [])) (fun r =>
      bind (step c (require (fst r) s)) (fun s =>
        Some (emit [SMatch sel (snd r)] (flush s))))
  | QLet c f =>                                          (* encoder.rs:309-316 *)
      bind (step c s) (fun s => Some (emit [SLet f] (flush s)))
  end
with sencode (x : string_item) (s : sencoder) : option sencoder :=
  match x with
  | PText c t | PConstLit c t => encode_str t c s        (* string_parser.rs:259-261, 301-303 *)
  | PDollar c => encode_str $"$" c s                     (* string_parser.rs:239-246 *)
  | PConst c v => semit [SAppend v] false false c s      (* string_parser.rs:262-265 *)
  | PIdent c name =>                                     (* string_parser.rs:279-285 *)
      semit [SItem OpenEval; SItem (Literal (Static name)); SItem CloseEval] true false c s
  | PEval c qs =>                                        (* string_parser.rs:287-296 *)
      bind (block_with encode (Some (content_span c qs)) qs) (fun r =>
        semit (SItem OpenEval :: snd r ++ [SItem CloseEval]) true (fst r) c s)
  end.

(** The code generated for a whole quote, and whether it requires a language with
    string interpolation (lib.rs:50-60, quote_in.rs:18-23, quote_fn.rs:13-18). *)
Definition quote_code (qs : list quoted_item) : option (bool * list stmt) :=
  block_with encode None qs.

(** ** Running the generated code *)

Definition fold_state {A : Type} (f : A -> E * tokens LI -> E * tokens LI)
  : list A -> E * tokens LI -> E * tokens LI :=
  fix go (l : list A) (st : E * tokens LI) : E * tokens LI :=
    match l with [] => st | x :: l' => go l' (f x st) end.

(** encoder.rs:246-259: [while let Some(p) = it.next() { body; if
    it.peek().is_some() { join } }]. *)
Definition join_loop (body join : E * tokens LI -> E * tokens LI)
  : list (E -> E) -> E * tokens LI -> E * tokens LI :=
  fix go (bs : list (E -> E)) (st : E * tokens LI) : E * tokens LI :=
    match bs with
    | [] => st
    | b :: bs' =>
        let st := body (b (fst st), snd st) in
        go bs' (match bs' with [] => st | _ => join st end)
    end.

(** The code is Rust with the receiver as the second component. *)
Fixpoint exec (c : stmt) (st : E * tokens LI) : E * tokens LI :=
  match c with
  | SStatic s => (fst st, append (VItemStr (Static s)) (snd st))
  | SItem x => (fst st, append (VItem x) (snd st))
  | SAppend v => let '(v, e) := v (fst st) in (e, append v (snd st))
  | SSpace => (fst st, space (snd st))
  | SPush => (fst st, push (snd st))
  | SLine => (fst st, line (snd st))
  | SIndent => (fst st, indent (snd st))
  | SUnindent => (fst st, unindent (snd st))
  | SCode code => let '(cs, e) := code (fst st) in (e, run cs (snd st))
  | SEffect f => (f (fst st), snd st)
  | SFor it body =>
      let '(bs, e) := it (fst st) in
      fold_state (fun b st => fold_state exec body (b (fst st), snd st)) bs (e, snd st)
  | SForJoin it body join =>
      let '(bs, e) := it (fst st) in
      join_loop (fold_state exec body) (fold_state exec join) bs (e, snd st)
  | SIf cond a b =>
      let '(yes, e) := cond (fst st) in
      if yes : bool then fold_state exec a (e, snd st)
      else match b with
           | Some b => fold_state exec b (e, snd st)
           | None => (e, snd st)
           end
  | SMatch sel arms =>
      let '(i, e) := sel (fst st) in
      (fix pick (arms : list (list stmt)) (i : nat) : E * tokens LI :=
         match arms, i with
         | a :: _, O => fold_state exec a (e, snd st)
         | _ :: arms', S i' => pick arms' i'
         | [], _ => (e, snd st)
         end) arms i
  | SLet f => (f (fst st), snd st)
  end.
(** Statements one after another. *)
Definition execs (code : list stmt) : E * tokens LI -> E * tokens LI := fold_state exec code.

(** genco-macros/src/lib.rs:48-77: [quote!] *)
Definition quote (qs : list quoted_item) (e : E) : option (E * tokens LI) :=
  option_map (fun r => execs (snd r) (e, new)) (quote_code qs).
(** genco-macros/src/quote_in.rs:12-39: [quote_in!] *)
Definition quote_in (qs : list quoted_item) (e : E) (t : tokens LI) : option (E * tokens LI) :=
  option_map (fun r => execs (snd r) (e, t)) (quote_code qs).
End Macro.
Arguments pos : clear implicits. Arguments stmt : clear implicits.
Arguments quoted_item : clear implicits. Arguments string_item : clear implicits.
Arguments encoder : clear implicits. Arguments sencoder : clear implicits.
