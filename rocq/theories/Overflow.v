(** * The 16-bit indentation counters.

    src/tokens/tokens.rs:645-662 and src/fmt/formatter.rs:137-140 add i16
    values with [+=], which panics on overflow in debug builds and wraps in
    release builds.  This file repeats the two functions with checked
    arithmetic; [None] is the panic (or wrap). *)
From Verif Require Import Tokens SpecTokens TokensRun.

(** [i16::MIN], for [n: i16] at src/tokens/tokens.rs:645 *)
Definition i16_min : Z := (-32768)%Z.
(** [i16::MAX], likewise *)
Definition i16_max : Z := 32767%Z.
(** The range of [i16]. *)
Definition in_i16 (z : Z) : bool := ((i16_min <=? z) && (z <=? i16_max))%Z.
(** [+] on [i16], which panics (or wraps) outside the range: src/tokens/tokens.rs:645-662, src/fmt/formatter.rs:137-140 *)
Definition i16_add (a b : Z) : option Z :=
  if in_i16 (a + b) then Some (a + b)%Z else None.

Section Checked.
Context {LI : Type}.

(** src/tokens/tokens.rs:645-662, [n += u] checked. *)
Fixpoint indentation_loop_checked (n : Z) (r : list (item LI))
  : option (list (item LI)) :=
  match r with
  | Push :: r' | Space :: r' | Line :: r' => indentation_loop_checked n r'
  | Indentation u :: r' =>
      match i16_add n u with
      | Some m => indentation_loop_checked m r'
      | None => None
      end
  | r' => Some (if Z.eqb n 0 then r' else Indentation n :: r')
  end.

(** src/tokens/tokens.rs:572-582 *)
Definition add_item_checked (x : item LI) (t : tokens LI) : option (tokens LI) :=
  match x with
  | Indentation n =>
      match indentation_loop_checked n (ritems t) with
      | Some r => Some (mk_tokens r (last_lang_item t))
      | None => None
      end
  | _ => Some (add_item x t)
  end.

(** src/tokens/tokens.rs:201-212 *)
Fixpoint extend_checked (xs : list (item LI)) (t : tokens LI)
  : option (tokens LI) :=
  match xs with
  | [] => Some t
  | x :: xs' =>
      match add_item_checked x t with
      | Some t' => extend_checked xs' t'
      | None => None
      end
  end.

(** The public calls, see [TokensRun.run_call]. *)
Fixpoint run_call_checked (c : call LI) (t : tokens LI) : option (tokens LI) :=
  match c with
  | CItem x => add_item_checked x t
  | CSpace => add_item_checked Space t
  | CPush => add_item_checked Push t
  | CLine => add_item_checked Line t
  | CIndent => add_item_checked (Indentation 1) t
  | CUnindent => add_item_checked (Indentation (-1)) t
  | CExtend xs => extend_checked xs t
  | CAppend cs =>
      let fix go cs b :=
        match cs with
        | [] => Some b
        | c :: cs' =>
            match run_call_checked c b with
            | Some b' => go cs' b'
            | None => None
            end
        end in
      match go cs new with
      | Some b => extend_checked (items b) t
      | None => None
      end
  end.
(** Calls one after another, with overflow checks. *)
Fixpoint run_checked (cs : list (call LI)) (t : tokens LI) : option (tokens LI) :=
  match cs with
  | [] => Some t
  | c :: cs' =>
      match run_call_checked c t with
      | Some t' => run_checked cs' t'
      | None => None
      end
  end.

(** src/fmt/formatter.rs:137-140: the formatter's level after the given items,
    [self.indent += n] checked at each step. *)
Fixpoint level_checked (lvl : Z) (xs : list (item LI)) : option Z :=
  match xs with
  | [] => Some lvl
  | Indentation n :: xs' =>
      match i16_add lvl n with
      | Some l => level_checked l xs'
      | None => None
      end
  | _ :: xs' => level_checked lvl xs'
  end.

(** Specification: total amount of indentation requested. *)
Fixpoint requested (xs : list (item LI)) : Z :=
  match xs with
  | [] => 0%Z
  | x :: xs' => (Z.abs (indentation_of x) + requested xs')%Z
  end.

End Checked.
