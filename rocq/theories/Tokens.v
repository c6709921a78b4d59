(** * Token streams.

    Models src/tokens/item.rs, src/tokens/item_str.rs and
    src/tokens/tokens.rs. *)
From Verif Require Export Str.

(** src/tokens/item_str.rs:15-21 — an immutable string, either boxed or
    static.  The derived [PartialEq]/[Ord]/[Hash] distinguish the two. *)
Inductive item_str : Type :=
| Box (s : str)
| Static (s : str).

(** src/tokens/item_str.rs:42-60 (AsRef, Deref): the text. *)
Definition content (s : item_str) : str :=
  match s with Box s => s | Static s => s end.

(** src/tokens/item.rs:9-49.  [LI] is the language's item type ([L::Item]).
    [Indentation] holds an i16 in the code and an unbounded integer here; the
    checked arithmetic is in [Overflow.v]. *)
Inductive item (LI : Type) : Type :=
| Literal (s : item_str)
| Lang (prev : nat) (l : LI)
| Register (prev : nat) (l : LI)
| Push
| Line
| Space
| Indentation (n : Z)
| OpenQuote (has_eval : bool)
| CloseQuote
| OpenEval
| CloseEval.
Arguments Literal {LI}. Arguments Lang {LI}. Arguments Register {LI}.
Arguments Push {LI}. Arguments Line {LI}. Arguments Space {LI}.
Arguments Indentation {LI}. Arguments OpenQuote {LI}.
Arguments CloseQuote {LI}. Arguments OpenEval {LI}. Arguments CloseEval {LI}.

(** src/tokens/tokens.rs:72-86.  The vector [items] is stored with its last
    element first, because every operation works on the end of the vector;
    [items] below gives it in order. *)
Record tokens (LI : Type) : Type := mk_tokens {
  ritems : list (item LI);
  last_lang_item : nat
}.
Arguments mk_tokens {LI}. Arguments ritems {LI}. Arguments last_lang_item {LI}.

Section Ops.
Context {LI : Type}.
Implicit Types t : tokens LI.

(** src/tokens/tokens.rs:103-108 and 121-126 ([new], [with_capacity]). *)
Definition new : tokens LI := mk_tokens [] 0.

(** The item vector in order; src/tokens/tokens.rs:146-150 ([iter]),
    947-996 ([into_iter]). *)
Definition items t : list (item LI) := rev (ritems t).

(** [Vec::push] on the item vector. *)
Definition vec_push (x : item LI) t : tokens LI :=
  mk_tokens (x :: ritems t) (last_lang_item t).

(** src/tokens/tokens.rs:275-277 *)
Definition is_empty t : bool :=
  match ritems t with [] => true | _ => false end.

(** src/tokens/tokens.rs:309-315 *)
Definition space t : tokens LI :=
  match ritems t with
  | Space :: _ => t
  | _ => vec_push Space t
  end.

(** src/tokens/tokens.rs:347-362: the pop loop on the (reversed) vector.
    Pops spaces and pushes; a line is put back and ends the operation; the
    first other item (or the empty vector) is put back and [Push] is added. *)
Fixpoint push_loop (r : list (item LI)) : list (item LI) :=
  match r with
  | Line :: r' => Line :: r'
  | Space :: r' | Push :: r' => push_loop r'
  | r' => Push :: r'
  end.
(** src/tokens/tokens.rs:347-362 *)
Definition push t : tokens LI :=
  mk_tokens (push_loop (ritems t)) (last_lang_item t).

(** src/tokens/tokens.rs:395-405: pops lines and pushes. *)
Fixpoint line_loop (r : list (item LI)) : list (item LI) :=
  match r with
  | Line :: r' | Push :: r' => line_loop r'
  | r' => Line :: r'
  end.
(** src/tokens/tokens.rs:395-405 *)
Definition line t : tokens LI :=
  mk_tokens (line_loop (ritems t)) (last_lang_item t).

(** src/tokens/tokens.rs:645-662: pops whitespace, accumulating popped
    indentation changes into [n]; a zero change is not stored. *)
Fixpoint indentation_loop (n : Z) (r : list (item LI)) : list (item LI) :=
  match r with
  | Push :: r' | Space :: r' | Line :: r' => indentation_loop n r'
  | Indentation u :: r' => indentation_loop (n + u) r'
  | r' => if Z.eqb n 0 then r' else Indentation n :: r'
  end.
(** src/tokens/tokens.rs:645-662 *)
Definition indentation (n : Z) t : tokens LI :=
  mk_tokens (indentation_loop n (ritems t)) (last_lang_item t).

(** src/tokens/tokens.rs:442-444, 492-494 *)
Definition indent t : tokens LI := indentation 1 t.
(** src/tokens/tokens.rs:492-494 *)
Definition unindent t : tokens LI := indentation (-1) t.

(** src/tokens/tokens.rs:585-590: the new item links to the previous language
    item; positions are one-based, 0 being "none". *)
Definition lang_item (l : LI) t : tokens LI :=
  let r := Lang (last_lang_item t) l :: ritems t in
  mk_tokens r (length r).

(** src/tokens/tokens.rs:593-598 *)
Definition lang_item_register (l : LI) t : tokens LI :=
  let r := Register (last_lang_item t) l :: ritems t in
  mk_tokens r (length r).

(** src/tokens/tokens.rs:572-582.  The [prev] link of an incoming language
    item is ignored. *)
Definition add_item (x : item LI) t : tokens LI :=
  match x with
  | Push => push t
  | Line => line t
  | Space => space t
  | Indentation n => indentation n t
  | Lang _ l => lang_item l t
  | Register _ l => lang_item_register l t
  | other => vec_push other t
  end.

(** src/tokens/tokens.rs:201-212 ([extend]; capacity is not modelled). *)
Definition extend (xs : list (item LI)) t : tokens LI :=
  fold_left (fun t x => add_item x t) xs t.

(** src/tokens/tokens.rs:998-1022 ([FromIterator]). *)
Definition from_iter (xs : list (item LI)) : tokens LI := extend xs new.

(** src/tokens/format_into.rs:54-85: appending an owned or borrowed stream. *)
Definition append_tokens (b : tokens LI) t : tokens LI := extend (items b) t.

(** src/tokens/tokens.rs:1035-1060 ([WalkImports::next]): the language item
    at one-based position [pos] and the position to continue from.  Returns
    [None] at position 0, out of bounds, or if the position does not hold a
    language item. *)
Definition walk_next (its : list (item LI)) (pos : nat) : option (LI * nat) :=
  match pos with
  | O => None
  | S p =>
      match nth_error its p with
      | Some (Lang prev l) => Some (l, prev)
      | Some (Register prev l) => Some (l, prev)
      | _ => None
      end
  end.

(** Driving the iterator to the end ([for x in tokens.walk_imports()]).  The
    fuel bounds the number of calls of [next]; [walk_terminates] in
    [TokensFacts.v] shows that it never runs out. *)
Fixpoint walk_from (fuel : nat) (its : list (item LI)) (pos : nat) : list LI :=
  match fuel with
  | O => []
  | S f =>
      match walk_next its pos with
      | None => []
      | Some (l, prev) => l :: walk_from f its prev
      end
  end.

(** src/tokens/tokens.rs:233-238 *)
Definition walk_imports t : list LI :=
  walk_from (S (length (items t))) (items t) (last_lang_item t).

End Ops.
