(** * Specification vocabulary for token streams.

    Nothing here refers to the operations of [Tokens.v]; only to its data
    types. *)
From Verif Require Import Tokens.

Section Spec.
Context {LI : Type}.

(** Whitespace items. *)
Definition is_space (x : item LI) : bool :=
  match x with Space => true | _ => false end.
Definition is_break (x : item LI) : bool :=
  match x with Push | Line => true | _ => false end.
Definition is_indentation (x : item LI) : bool :=
  match x with Indentation _ => true | _ => false end.
Definition is_white (x : item LI) : bool :=
  is_space x || is_break x || is_indentation x.

(** Two adjacent items that a canonical stream must not contain. *)
Definition bad_pair (a b : item LI) : bool :=
     (is_space a && is_space b)                          (* two spaces *)
  || (is_break a && is_break b)                          (* two line breaks *)
  || (is_space a && match b with Push => true | _ => false end)
                                                         (* space, then push *)
  || (is_white a && is_indentation b).      (* whitespace before indentation *)

(** Whitespace-canonical sequences. *)
Definition canonical (xs : list (item LI)) : Prop :=
  (forall pre a b post, xs = pre ++ a :: b :: post -> bad_pair a b = false) /\
  (forall n, In (Indentation n) xs -> n <> 0%Z).

(** The content of a stream: everything but whitespace, without the internal
    links of language items. *)
Inductive piece : Type :=
| PText (s : item_str)
| PLang (l : LI)
| PRegister (l : LI)
| POpenQuote (has_eval : bool)
| PCloseQuote
| POpenEval
| PCloseEval.

Definition piece_of (x : item LI) : list piece :=
  match x with
  | Literal s => [PText s]
  | Lang _ l => [PLang l]
  | Register _ l => [PRegister l]
  | OpenQuote e => [POpenQuote e]
  | CloseQuote => [PCloseQuote]
  | OpenEval => [POpenEval]
  | CloseEval => [PCloseEval]
  | Push | Line | Space | Indentation _ => []
  end.
Definition pieces (xs : list (item LI)) : list piece := flat_map piece_of xs.

(** Net indentation. *)
Definition indentation_of (x : item LI) : Z :=
  match x with Indentation n => n | _ => 0%Z end.
Fixpoint net_indentation (xs : list (item LI)) : Z :=
  match xs with
  | [] => 0%Z
  | x :: xs' => (indentation_of x + net_indentation xs')%Z
  end.

(** The language items (rendered or merely registered), in order. *)
Definition import_of (x : item LI) : list LI :=
  match x with Lang _ l | Register _ l => [l] | _ => [] end.
Definition imports_of (xs : list (item LI)) : list LI := flat_map import_of xs.

(** A stream with no pending whitespace at its end. *)
Definition closed (xs : list (item LI)) : Prop :=
  forall pre x, xs = pre ++ [x] -> is_white x = false.

(** [body ++ ws] splits a sequence at its longest suffix of items satisfying
    [p]. *)
Definition suffix_split (p : item LI -> bool) (xs body ws : list (item LI)) : Prop :=
  xs = body ++ ws /\ Forall (fun x => p x = true) ws /\
  (forall pre x, body = pre ++ [x] -> p x = false).

Definition space_or_push (x : item LI) : bool :=
  match x with Space | Push => true | _ => false end.

(** ** Histories of public calls *)

(** The public builder calls; [CAppend] appends a stream that was itself built
    by calls, [CExtend] is [Tokens::extend]/[from_iter] on arbitrary items.
    Every other way to append a value reduces to these (see [Values.v]). *)
Inductive call : Type :=
| CItem (x : item LI)
| CSpace | CPush | CLine | CIndent | CUnindent
| CExtend (xs : list (item LI))
| CAppend (cs : list call).

(** What a history appends, reads off directly from the calls. *)
Fixpoint supplied (c : call) : list (item LI) :=
  match c with
  | CItem x => [x]
  | CSpace => [Space]
  | CPush => [Push]
  | CLine => [Line]
  | CIndent => [Indentation 1]
  | CUnindent => [Indentation (-1)]
  | CExtend xs => xs
  | CAppend cs => flat_map supplied cs
  end.

End Spec.
Arguments piece : clear implicits.
Arguments call : clear implicits.
