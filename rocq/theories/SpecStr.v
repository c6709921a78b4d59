(** * Specification: reading numbers and UTF-8.

    Independent of the printers and encoders of [Str.v]. *)
From Verif Require Import Str.

(** ** Reading numbers back (independent of the printers) *)

(** Positional value of a digit sequence. *)
Definition digits_value (b : N) (ds : list N) : N :=
  fold_left (fun a d => (a * b + d)%N) ds 0%N.

Definition dec_digit (c : N) : option N :=
  if ((48 <=? c) && (c <=? 57))%N then Some (c - 48)%N else None.
Definition hex_digit (c : N) : option N :=
  if ((48 <=? c) && (c <=? 57))%N then Some (c - 48)%N
  else if ((97 <=? c) && (c <=? 102))%N then Some (c - 87)%N
  else if ((65 <=? c) && (c <=? 70))%N then Some (c - 55)%N
  else None.

Fixpoint read_digits (digit : N -> option N) (s : str) : option (list N) :=
  match s with
  | [] => Some []
  | c :: s' =>
      match digit c, read_digits digit s' with
      | Some d, Some ds => Some (d :: ds)
      | _, _ => None
      end
  end.

Definition read_dec (s : str) : option N :=
  match s with
  | [] => None
  | _ => option_map (digits_value 10) (read_digits dec_digit s)
  end.
Definition read_hex (s : str) : option N :=
  match s with
  | [] => None
  | _ => option_map (digits_value 16) (read_digits hex_digit s)
  end.

(** Signed decimal numbers. *)
Definition read_int (s : str) : option Z :=
  match s with
  | 45%N :: s' => option_map (fun n => (- Z.of_N n)%Z) (read_dec s')
  | _ => option_map Z.of_N (read_dec s)
  end.

(** ** UTF-8: an independent decoder *)

Definition cont (b : N) : option N :=
  if ((128 <=? b) && (b <? 192))%N then Some (b - 128)%N else None.

(** Decode the first character (RFC 3629: no longer forms than needed, no
    surrogates). *)
Definition checked (least v : N) (l : list N) : option (N * list N) :=
  if ((least <=? v)%N && scalarb v)%bool then Some (v, l) else None.
Definition utf8_first (l : list N) : option (N * list N) :=
  match l with
  | [] => None
  | b0 :: l1 =>
      if (b0 <? 128)%N then Some (b0, l1)
      else if ((192 <=? b0) && (b0 <? 224))%N then
        match l1 with
        | b1 :: l2 =>
            match cont b1 with
            | Some x => checked 128 ((b0 - 192) * 64 + x) l2
            | None => None
            end
        | _ => None
        end
      else if ((224 <=? b0) && (b0 <? 240))%N then
        match l1 with
        | b1 :: b2 :: l3 =>
            match cont b1, cont b2 with
            | Some x, Some y => checked 2048 ((b0 - 224) * 4096 + x * 64 + y) l3
            | _, _ => None
            end
        | _ => None
        end
      else if ((240 <=? b0) && (b0 <? 248))%N then
        match l1 with
        | b1 :: b2 :: b3 :: l4 =>
            match cont b1, cont b2, cont b3 with
            | Some x, Some y, Some z =>
                checked 65536 ((b0 - 240) * 262144 + x * 4096 + y * 64 + z) l4
            | _, _, _ => None
            end
        | _ => None
        end
      else None
  end.

Inductive utf8_decodes : list N -> str -> Prop :=
| dec_nil : utf8_decodes [] []
| dec_cons l c l' s : utf8_first l = Some (c, l') -> utf8_decodes l' s ->
    utf8_decodes l (c :: s).

