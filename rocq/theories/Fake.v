(** * Positions without line information.

    Models genco-macros/src/fake.rs for compilers that do not tell the line and
    column of a token (build.rs sets [proc_macro_span] on others only): the
    position is taken from the debug output of the span, [#0 bytes(12..34)].
    Not modelled: the error message; that the debug output of a span is what it is
    is a fact about the compiler. *)
From Verif Require Import Str Tokens SpecTokens TokensRun Values Macro.

(** [str::parse::<usize>] on a 64-bit target. *)
Fixpoint parse_digits (acc : N) (s : str) : option N :=
  match s with
  | [] => Some acc
  | c :: s' =>
      if ((48 <=? c) && (c <=? 57))%N then
        let acc := (10 * acc + (c - 48))%N in
        if (acc <? 2 ^ 64)%N then parse_digits acc s' else None
      else None
  end.
(** [str::parse::<usize>]: an optional plus sign and digits (genco-macros/src/fake.rs:138). *)
Definition parse_usize (s : str) : option N :=
  match s with
  | [] => None
  | c :: s' =>
      if N.eqb c 43 then match s' with [] => None | _ => parse_digits 0 s' end
      else parse_digits 0 s
  end.
(** [str::find]: what follows the first occurrence of a character. *)
Fixpoint find_after (ch : N) (s : str) : option str :=
  match s with
  | [] => None
  | c :: s' => if N.eqb c ch then Some s' else find_after ch s'
  end.
(** [str::split_once("..")] *)
Fixpoint split_dots (s : str) : option (str * str) :=
  match s with
  | [] => None
  | c :: s' =>
      match (if N.eqb c 46 then match s' with d :: s'' => if N.eqb d 46 then Some s'' else None | [] => None end
             else None) with
      | Some s'' => Some ([], s'')
      | None => option_map (fun '(a, b) => (c :: a, b)) (split_dots s')
      end
  end.
(** [text.get(start + 1..text.len() - 1)]: all but the last byte, if that is a
    character. *)
Definition drop_last (s : str) : option str :=
  match rev s with
  | [] => None
  | c :: r => if is_ascii c then Some (rev r) else None
  end.

(** genco-macros/src/fake.rs:132-139 *)
Definition find_line_column_inner (debug : str) : option (N * N) :=
  bind (find_after 40 debug) (fun s =>
  bind (drop_last s) (fun s =>
  bind (split_dots s) (fun '(start, end_) =>
  bind (parse_usize start) (fun start =>
  bind (parse_usize end_) (fun end_ => Some (start, end_)))))).

(** genco-macros/src/fake.rs:68-90 ([cursor]), with 41-49 ([start] and [end] do not
    know).  Columns are [nat] as in [Macro.v]. *)
Definition compat_cursor (debug : str) : option cursor :=
  bind (find_line_column_inner debug) (fun '(start, end_) =>
    Some (mk_cursor (mk_pos 1 (N.to_nat start)) (mk_pos 1 (N.to_nat end_)))).
(** genco-macros/src/fake.rs:93-101 and 104-112 ([start], [end]), 115-121 ([join]). *)
Definition compat_join (a b : str) : option cursor :=
  bind (find_line_column_inner a) (fun '(start, _) =>
  bind (find_line_column_inner b) (fun '(_, end_) =>
    Some (mk_cursor (mk_pos 1 (N.to_nat start)) (mk_pos 1 (N.to_nat end_))))).
