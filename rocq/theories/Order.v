(** * Ordered sets and maps.

    Models the parts of [alloc::collections::BTreeSet] and [BTreeMap] used by
    the language back ends, and the derived [Ord] instances of their keys. *)
From Verif Require Export Tokens.

(** ** Comparisons *)

(** Lexicographic combination, as [#[derive(Ord)]] and tuples do. *)
Definition then_cmp (a b : comparison) : comparison :=
  match a with Eq => b | _ => a end.

(** Tuples, lexicographically (the keys at src/lang/c.rs:76, java/mod.rs:184, python.rs:303 and so on). *)
Definition cmp_pair {A B} (ca : A -> A -> comparison) (cb : B -> B -> comparison)
    (x y : A * B) : comparison :=
  then_cmp (ca (fst x) (fst y)) (cb (snd x) (snd y)).

(** [Option]: [None] first. *)
Definition cmp_option {A} (c : A -> A -> comparison) (x y : option A) : comparison :=
  match x, y with
  | None, None => Eq
  | None, Some _ => Lt
  | Some _, None => Gt
  | Some a, Some b => c a b
  end.

(** [bool]: false first. *)
Definition cmp_bool (x y : bool) : comparison :=
  match x, y with
  | false, true => Lt
  | true, false => Gt
  | _, _ => Eq
  end.

(** [usize] (src/tokens/item.rs:9-49). *)
Definition cmp_nat (x y : nat) : comparison := Nat.compare x y.

(** src/tokens/item_str.rs:15-21, derived: variants in declaration order. *)
Definition cmp_item_str (x y : item_str) : comparison :=
  match x, y with
  | Box a, Box b => str_cmp a b
  | Box _, Static _ => Lt
  | Static _, Box _ => Gt
  | Static a, Static b => str_cmp a b
  end.

(** Slices and vectors, lexicographically. *)
Section ListCmp.
Context {A : Type} (c : A -> A -> comparison).
(** [Vec<Item<L>>] (src/tokens/tokens.rs:72-86, derived). *)
Fixpoint cmp_list (x y : list A) : comparison :=
  match x, y with
  | [], [] => Eq
  | [], _ :: _ => Lt
  | _ :: _, [] => Gt
  | a :: x', b :: y' => then_cmp (c a b) (cmp_list x' y')
  end.
End ListCmp.

(** ** Sets and maps as sorted lists *)

Section Collections.
Context {K V : Type} (cmp : K -> K -> comparison).

(** [BTreeSet::insert]; iteration visits the list in order. *)
Fixpoint set_insert (x : K) (l : list K) : list K :=
  match l with
  | [] => [x]
  | y :: l' =>
      match cmp x y with
      | Lt => x :: l
      | Eq => l
      | Gt => y :: set_insert x l'
      end
  end.

(** [BTreeSet::contains]. *)
Definition set_mem (x : K) (l : list K) : bool :=
  existsb (fun y => match cmp x y with Eq => true | _ => false end) l.

(** [BTreeMap::get]. *)
Fixpoint map_get (k : K) (m : list (K * V)) : option V :=
  match m with
  | [] => None
  | (k', v) :: m' => match cmp k k' with Eq => Some v | _ => map_get k m' end
  end.

(** [BTreeMap::entry(k).or_default()] followed by an update of the entry;
    [BTreeMap::insert] is the case of a constant update. *)
Fixpoint map_update (k : K) (default : V) (f : V -> V) (m : list (K * V))
  : list (K * V) :=
  match m with
  | [] => [(k, f default)]
  | (k', v) :: m' =>
      match cmp k k' with
      | Lt => (k, f default) :: m
      | Eq => (k', f v) :: m'
      | Gt => (k', v) :: map_update k default f m'
      end
  end.
(** [BTreeMap::insert] (src/lang/java/mod.rs:207, csharp/mod.rs:209). *)
Definition map_insert (k : K) (v : V) (m : list (K * V)) : list (K * V) :=
  map_update k v (fun _ => v) m.

End Collections.

(** ** Searching in strings *)

Fixpoint starts_with (p s : str) : bool :=
  match p, s with
  | [], _ => true
  | c :: p', d :: s' => N.eqb c d && starts_with p' s'
  | _ :: _, [] => false
  end.

(** [str::contains]; for a non-empty [sep] this is [s.split(sep).count() > 1]. *)
Fixpoint contains (sep s : str) : bool :=
  starts_with sep s || match s with [] => false | _ :: s' => contains sep s' end.

(** [s.rsplit(sep).next()]: what follows the last occurrence of [sep], all of
    [s] if there is none ([next] never returns [None] on a fresh split). *)
Fixpoint after_last_sep (sep s : str) : str :=
  match s with
  | [] => []
  | _ :: s' =>
      if contains sep s then
        if contains sep s' then after_last_sep sep s' else skipn (length sep) s
      else s
  end.

(** [s.split(c).next()]: what precedes the first [c]. *)
Fixpoint before_char (c : N) (s : str) : str :=
  match s with
  | [] => []
  | x :: s' => if N.eqb x c then [] else x :: before_char c s'
  end.

(** ** Writing a sequence of calls on a stream left to right *)
Notation "t |> f" := (f t) (at level 50, left associativity, only parsing).
