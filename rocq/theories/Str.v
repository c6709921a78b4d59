(** * Text: code points, strings, number formatting, encodings.

    A Rust [char] is modelled by its code point in [N]; a Rust [str]/[String] by
    the list of its code points.  The invariant that Rust strings hold Unicode
    scalar values only is the predicate [valid]; it is a hypothesis exactly
    where an encoding depends on it. *)
From Coq Require Export List Arith NArith ZArith Bool Lia Ascii.
From Coq Require String.
From Coq Require Import ZifyBool ZifyNat ZifyN.
Export ListNotations String.StringSyntax.
Delimit Scope string_scope with string.

Definition str := list N.

(** String constants of the Rust sources (all ASCII). *)
Definition lit (s : String.string) : str :=
  map N_of_ascii (String.list_ascii_of_string s).

Notation "'$' s" := (lit s%string) (at level 0, s at level 0).

(** Unicode scalar values: what a Rust [char] can hold. *)
Definition scalar (c : N) : Prop :=
  (c < 55296 \/ (57344 <= c /\ c < 1114112))%N.
Definition valid (s : str) : Prop := Forall scalar s.

Definition scalarb (c : N) : bool :=
  ((c <? 55296) || ((57344 <=? c) && (c <? 1114112)))%N.

(** [char::is_control]: the general category Cc. *)
Definition is_control (c : N) : bool :=
  ((c <=? 31) || ((127 <=? c) && (c <=? 159)))%N.

(** [char::is_ascii]. *)
Definition is_ascii (c : N) : bool := (c <? 128)%N.

(** Equality and ordering of [str].  Rust compares UTF-8 bytes, which orders
    strings the same way as comparing code points lexicographically. *)
Fixpoint str_cmp (a b : str) : comparison :=
  match a, b with
  | [], [] => Eq
  | [], _ :: _ => Lt
  | _ :: _, [] => Gt
  | x :: a', y :: b' =>
      match N.compare x y with
      | Eq => str_cmp a' b'
      | c => c
      end
  end.

Definition str_eqb (a b : str) : bool :=
  match str_cmp a b with Eq => true | _ => false end.

(** ** Number formatting ([{}], [{:x}], [{:02x}], ... of [core::fmt]). *)

Fixpoint to_base (b : N) (fuel : nat) (n : N) (acc : list N) : list N :=
  match fuel with
  | O => acc
  | S f =>
      if (n <? b)%N then n :: acc
      else to_base b f (n / b)%N ((n mod b)%N :: acc)
  end.

Definition hex_char (d : N) : N :=
  if (d <? 10)%N then (48 + d)%N else (87 + d)%N.

Definition zero_pad (w : nat) (s : str) : str :=
  repeat 48%N (w - length s) ++ s.

(** [{:x}] *)
Definition hex (n : N) : str :=
  map hex_char (to_base 16 (S (N.size_nat n)) n []).
(** [{:0wx}] *)
Definition hex_pad (w : nat) (n : N) : str := zero_pad w (hex n).

(** [{}] for unsigned integers. *)
Definition dec (n : N) : str :=
  map (fun d => (48 + d)%N) (to_base 10 (S (N.size_nat n)) n []).
(** [{}] for signed integers. *)
Definition dec_z (z : Z) : str :=
  match z with
  | Z0 => dec 0
  | Zpos p => dec (Npos p)
  | Zneg p => 45%N :: dec (Npos p)
  end.

(** ** Encodings *)

(** [char::encode_utf8]. *)
Definition utf8_char (c : N) : list N :=
  if (c <? 128)%N then [c]
  else if (c <? 2048)%N then [192 + c / 64; 128 + c mod 64]%N
  else if (c <? 65536)%N then
    [224 + c / 4096; 128 + (c / 64) mod 64; 128 + c mod 64]%N
  else
    [240 + c / 262144; 128 + (c / 4096) mod 64;
     128 + (c / 64) mod 64; 128 + c mod 64]%N.

(** [str::as_bytes]. *)
Definition utf8 (s : str) : list N := flat_map utf8_char s.

(** [char::encode_utf16]. *)
Definition utf16_char (c : N) : list N :=
  if (c <? 65536)%N then [c]
  else [55296 + (c - 65536) / 1024; 56320 + (c - 65536) mod 1024]%N.

(** Joining, as [slice::join]. *)
Fixpoint join (sep : str) (l : list str) : str :=
  match l with
  | [] => []
  | [x] => x
  | x :: l' => x ++ sep ++ join sep l'
  end.
