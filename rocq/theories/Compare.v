(** * Comparison of streams.

    Models the derived and written [PartialEq], [Eq], [PartialOrd] and [Ord] of
    [Tokens] and [Item].  The language items bring their own. *)
From Verif Require Import Str Tokens Order.

Section Compare.
Context {LI : Type} (li_eqb : LI -> LI -> bool) (li_cmp : LI -> LI -> comparison).

(** src/tokens/item_str.rs:15, derived [PartialEq]. *)
Definition item_str_eqb (a b : item_str) : bool :=
  match a, b with
  | Box x, Box y => str_eqb x y
  | Static x, Static y => str_eqb x y
  | _, _ => false
  end.
(** src/tokens/item.rs:9, derived [PartialEq]: the same variant with equal fields. *)
Definition item_eqb (a b : item LI) : bool :=
  match a, b with
  | Literal x, Literal y => item_str_eqb x y
  | Lang p x, Lang q y => Nat.eqb p q && li_eqb x y
  | Register p x, Register q y => Nat.eqb p q && li_eqb x y
  | Push, Push => true
  | Line, Line => true
  | Space, Space => true
  | Indentation m, Indentation n => Z.eqb m n
  | OpenQuote e, OpenQuote f => Bool.eqb e f
  | CloseQuote, CloseQuote => true
  | OpenEval, OpenEval => true
  | CloseEval, CloseEval => true
  | _, _ => false
  end.
(** [Vec]'s [PartialEq]. *)
Fixpoint items_eqb (a b : list (item LI)) : bool :=
  match a, b with
  | [], [] => true
  | x :: a', y :: b' => item_eqb x y && items_eqb a' b'
  | _, _ => false
  end.
(** src/tokens/tokens.rs:72, derived [PartialEq]: both fields. *)
Definition tokens_eqb (a b : tokens LI) : bool :=
  items_eqb (items a) (items b) && Nat.eqb (last_lang_item a) (last_lang_item b).
(** src/tokens/tokens.rs:867-875 and 886-893: with a vector or a slice. *)
Definition tokens_eq_items (a : tokens LI) (v : list (item LI)) : bool := items_eqb (items a) v.
(** src/tokens/tokens.rs:877-884 and 895-902. *)
Definition items_eq_tokens (v : list (item LI)) (a : tokens LI) : bool := items_eqb v (items a).

(** src/tokens/item.rs:9-49: the variants in declaration order. *)
Definition rank (a : item LI) : nat :=
  match a with
  | Literal _ => 0
  | Lang _ _ => 1
  | Register _ _ => 2
  | Push => 3
  | Line => 4
  | Space => 5
  | Indentation _ => 6
  | OpenQuote _ => 7
  | CloseQuote => 8
  | OpenEval => 9
  | CloseEval => 10
  end.
(** src/tokens/item.rs:9, derived [Ord]: by variant, then by fields. *)
Definition cmp_item (a b : item LI) : comparison :=
  match a, b with
  | Literal x, Literal y => cmp_item_str x y
  | Lang p x, Lang q y => then_cmp (cmp_nat p q) (li_cmp x y)
  | Register p x, Register q y => then_cmp (cmp_nat p q) (li_cmp x y)
  | Indentation m, Indentation n => Z.compare m n
  | OpenQuote e, OpenQuote f => cmp_bool e f
  | _, _ => cmp_nat (rank a) (rank b)
  end.
(** src/tokens/tokens.rs:72, derived [Ord]: the items, then the last link. *)
Definition cmp_tokens (a b : tokens LI) : comparison :=
  then_cmp (cmp_list cmp_item (items a) (items b)) (cmp_nat (last_lang_item a) (last_lang_item b)).
End Compare.
