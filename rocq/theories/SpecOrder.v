(** * Specification: total orders, sorted lists.

    Refers to no function of the model. *)
From Coq Require Export List Sorted.
Export ListNotations.

(** A comparison that is a strict total order, on the elements satisfying [P]. *)
Definition order_on {A} (P : A -> Prop) (c : A -> A -> comparison) : Prop :=
  (forall x y, P x -> P y -> (c x y = Eq <-> x = y)) /\
  (forall x y, P x -> P y -> c y x = CompOpp (c x y)) /\
  (forall x y z, P x -> P y -> P z -> c x y = Lt -> c y z = Lt -> c x z = Lt).
Definition order {A} (c : A -> A -> comparison) : Prop := order_on (fun _ => True) c.

(** Strictly increasing, so without repetition. *)
Definition increasing {A} (c : A -> A -> comparison) (l : list A) : Prop :=
  StronglySorted (fun x y => c x y = Lt) l.

(** The same elements, in any order and number. *)
Definition same_set {A} (l1 l2 : list A) : Prop := forall x, In x l1 <-> In x l2.
