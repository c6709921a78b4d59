(** * Specification: when appending a stream is replaying the requests it was built from. *)
From Verif Require Import Tokens SpecTokens.

Section Spec.
Context {LI : Type}.
(** A space, a line break or an empty line. *)
Definition is_gap (x : item LI) : bool := is_space x || is_break x.

(** [u ++ rest] splits a sequence at its longest prefix of items satisfying [p]. *)
Definition prefix_split (p : item LI -> bool) (xs u rest : list (item LI)) : Prop :=
  xs = u ++ rest /\ Forall (fun x => p x = true) u /\ match rest with x :: _ => p x = false | [] => True end.

(** The first line break of these requests is replaced by the empty line after it. *)
Definition break_in_blank (u : list (item LI)) : Prop :=
  exists a b, u = a ++ Push :: Line :: b /\ Forall (fun x => space_or_push x = true) a.

(** A stream that ends in [w] ends in [left] once [left] is requested. *)
Definition absorbed (w left : list (item LI)) : Prop :=
  match left with
  | [] => w = []
  | Space :: _ => w = [] \/ w = [Space]
  | Push :: _ => ~ In Line w
  | Line :: _ => ~ In Space w
  | _ => False
  end.

(** The requests [u], which are white space, do to a stream that ends in the gap [w]
    what those that are left of them in a stream of their own do.  [alone] says what
    is left.  Line breaks before an empty line take pending spaces with them, and
    changes of the level take everything that is pending, even if nothing is left of
    these requests. *)
Definition same_effect (alone : list (item LI) -> list (item LI)) (w u : list (item LI)) : Prop :=
  (Forall (fun x => is_indentation x = false) u -> break_in_blank u -> forall w', w <> w' ++ [Space]) /\
  (forall u1 k u2, u = u1 ++ Indentation k :: u2 -> Forall (fun x => is_indentation x = false) u2 ->
     net_indentation u = 0%Z -> absorbed w (alone u2)).
End Spec.
