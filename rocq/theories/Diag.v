(** * Model: what the macros say about indentation they reject
    (genco-macros/src/encoder.rs:448-476). *)
From Verif Require Import Str Macro SpecMacro.

(** genco-macros/src/encoder.rs:448-469: the text of the error. *)
Definition indentation_error (to_column from_column : nat) : str :=
  let words len more :=
    $"expected " ++ dec (N.of_nat len) ++ $" " ++ more ++ $" " ++
    (if len =? 1 then $"space" else $"spaces") ++ $" of indentation" in
  if from_column <? to_column then words (to_column - from_column) $"less"
  else words (from_column - to_column) $"more".

(** genco-macros/src/encoder.rs:418-438: the error of the loop that pops
    indentation columns. *)
Fixpoint pop_error (col : nat) (stack : list nat) : option str :=
  match stack with
  | [] => None
  | c :: rest =>
      if (col <? c) && negb (match rest with [] => true | _ => false end) then pop_error col rest
      else if c =? col then None
      else Some (indentation_error col c)
  end.

Section Diag.
Context {LI E : Type}.

(** genco-macros/src/encoder.rs:377-446: the error of [tokenize_whitespace].  (A
    failing [debug_assert!] has another message.) *)
Definition whitespace_error (frm to : pos) (s : encoder LI E) : option str :=
  if p_line frm =? p_line to then None
  else if p_line to <? p_line frm then None
  else
    match e_last_start_column s with
    | None => None
    | Some col => if p_col to <? col then pop_error (p_col to) (e_indents s) else None
    end.
(** genco-macros/src/encoder.rs:133-143: the error of [step], reported at the
    token. *)
Definition step_error (next : cursor) (s : encoder LI E) : option (str * cursor) :=
  let '(f, s) := from s in
  match f with
  | Some frm => option_map (fun m => (m, next)) (whitespace_error frm (c_start next) s)
  | None => None
  end.

(** genco-macros/src/quote.rs:336-472 ([parse_inner]), encoder.rs:60-125: tokens in
    turn.  An element with a quote inside of it that is rejected is reported by
    that quote, before its own position is looked at: no error here. *)
Fixpoint tokens_error (ts : list (cursor * leaf LI E)) (s : encoder LI E) : option (str * cursor) :=
  match ts with
  | [] => None
  | (c, l) :: ts' =>
      match match l with LText _ => true | LOther x => match quote_code [x] with Some _ => true | None => false end end with
      | false => None
      | true =>
          match step_error c s with
          | Some err => Some err
          | None =>
              match
                match l with
                | LText u => bind (step c s) (fun s => Some (buffer_push u s))
                | LOther x => encode x s
                end
              with
              | Some s' => tokens_error ts' s'
              | None => None
              end
          end
      end
  end.
(** The error about indentation for a quote, outside of the quotes in it. *)
Definition quote_error (qs : list (quoted_item LI E)) : option (str * cursor) :=
  tokens_error (all_tokens qs) (encoder_new None None).
End Diag.
