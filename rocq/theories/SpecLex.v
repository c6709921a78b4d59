(** * Specification: string literals of the target languages.

    Lexical rules for double-quoted string literals (and JavaScript template
    text), written from the language references and independent of genco's
    quoting code.  A reader answers [None] for text that is not a literal or
    uses a form (octal escapes, line continuations, named characters) that is
    not covered here; where it answers, it answers what the language says. *)
From Verif Require Import Str SpecStr.

(** ** Reading escapes *)

(** Number escapes such as [\xhh] or [\uhhhh]. *)
Record number_escape : Type := mk_number {
  n_min : nat;                       (* least number of hex digits *)
  n_more : nat -> bool;              (* may a digit follow this many digits *)
  n_value : N -> option (list N)     (* what the number denotes *)
}.

(** Number escapes in braces such as [\u{h..}]. *)
Record braced_escape : Type := mk_braced {
  b_max : nat;
  b_value : N -> option (list N)
}.

Record grammar : Type := mk_grammar {
  (* the literal text ends before this character (given the next one) *)
  g_stop : N -> option N -> bool;
  (* this character and the next one are both taken literally *)
  g_pair : N -> option N -> bool;
  (* an unescaped character *)
  g_raw : N -> option (list N);
  (* backslash and one character (given the character after it) *)
  g_simple : N -> option N -> option (list N);
  g_number : N -> option number_escape;
  g_braced : N -> option braced_escape
}.

Definition emit (v : list N) (r : option (list N * str)) : option (list N * str) :=
  match r with Some (vs, rest) => Some (v ++ vs, rest) | None => None end.
Definition emit_opt (v : option (list N)) (r : option (list N * str))
  : option (list N * str) :=
  match v with Some v => emit v r | None => None end.

Inductive mode : Type :=
| MText
| MTake
| MEsc
| MNumber (e : number_escape) (n : nat) (acc : N)
| MOpen (e : braced_escape)
| MBraced (e : braced_escape) (n : nat) (acc : N).

Definition next_is (d : N) (o : option N) : bool :=
  match o with Some c => N.eqb c d | None => false end.
Definition is_hex (o : option N) : bool :=
  match o with
  | Some c => match hex_digit c with Some _ => true | None => false end
  | None => false
  end.

(** The value of literal text, and what follows it (starting with the character
    it stopped at). *)
Fixpoint lex (g : grammar) (m : mode) (s : str) : option (list N * str) :=
  match s with
  | [] => None
  | c :: r =>
      let next := hd_error r in
      match m with
      | MText =>
          if g_stop g c next then Some ([], s)
          else if N.eqb c 92 then lex g MEsc r
          else if g_pair g c next then emit_opt (g_raw g c) (lex g MTake r)
          else emit_opt (g_raw g c) (lex g MText r)
      | MTake => emit_opt (g_raw g c) (lex g MText r)
      | MEsc =>
          match g_braced g c with
          | Some e => if next_is 123 next
                      then lex g (MOpen e) r
                      else match g_number g c with
                           | Some e => lex g (MNumber e 0 0) r
                           | None => None
                           end
          | None =>
              match g_number g c with
              | Some e => lex g (MNumber e 0 0) r
              | None => emit_opt (g_simple g c next) (lex g MText r)
              end
          end
      | MNumber e n acc =>
          match hex_digit c with
          | None => None
          | Some d =>
              let acc := (acc * 16 + d)%N in
              if n_more e (S n) && is_hex next then lex g (MNumber e (S n) acc) r
              else if Nat.leb (n_min e) (S n)
                   then emit_opt (n_value e acc) (lex g MText r)
                   else None
          end
      | MOpen e => lex g (MBraced e 0 0) r
      | MBraced e n acc =>
          if N.eqb c 125 then
            if Nat.leb 1 n && Nat.leb n (b_max e)
            then emit_opt (b_value e acc) (lex g MText r) else None
          else match hex_digit c with
               | Some d => lex g (MBraced e (S n) (acc * 16 + d)%N) r
               | None => None
               end
      end
  end.

(** A double-quoted literal at the start of a text: its value, and the text
    after the closing quote. *)
Definition read_literal (g : grammar) (s : str) : option (list N * str) :=
  match s with
  | c :: r =>
      if N.eqb c 34 then
        match lex g MText r with
        | Some (v, c' :: rest) => if N.eqb c' 34 then Some (v, rest) else None
        | _ => None
        end
      else None
  | [] => None
  end.

(** ** Tables *)

Definition chr (s : String.string) : N := hd 0%N (lit s).
Arguments chr _%string.
Definition lookup (t : list (N * N)) (c : N) : option (list N) :=
  match find (fun p => N.eqb (fst p) c) t with
  | Some (_, v) => Some [v]
  | None => None
  end.
Definition stop_quote (c : N) (_ : option N) : bool := N.eqb c 34.
Definition no_pair (_ : N) (_ : option N) : bool := false.
Definition no_braced (_ : N) : option braced_escape := None.
Definition is_line_end (c : N) : bool := N.eqb c 10 || N.eqb c 13.

(** The value of a code point. *)
Definition as_scalar (n : N) : option (list N) := if scalarb n then Some [n] else None.
Definition exactly (n : nat) (value : N -> option (list N)) : number_escape :=
  mk_number n (fun k => Nat.ltb k n) value.

(** Escape letters shared by most languages. *)
Definition quote_escapes : list (N * N) :=
  [(34, 34); (92, 92)]%N.
Definition nrt_escapes : list (N * N) :=
  [(chr "n", 10%N); (chr "r", 13%N); (chr "t", 9%N)].
Definition bfv_escapes : list (N * N) :=
  [(chr "b", 8%N); (chr "f", 12%N); (chr "v", 11%N)].
Definition single_quote_escape : list (N * N) := [(39, 39)]%N.

(** *** UTF-16 *)

Definition utf16_units (c : N) : list N :=
  if (c <? 65536)%N then [c]
  else [55296 + (c - 65536) / 1024; 56320 + (c - 65536) mod 1024]%N.

(** Decoding, independently: surrogate pairs are combined. *)
Inductive utf16_decodes : list N -> str -> Prop :=
| d16_nil : utf16_decodes [] []
| d16_bmp c l s : (c < 55296 \/ 57344 <= c < 65536)%N -> utf16_decodes l s ->
    utf16_decodes (c :: l) (c :: s)
| d16_pair h w l s : (55296 <= h < 56320)%N -> (56320 <= w < 57344)%N ->
    utf16_decodes l s ->
    utf16_decodes (h :: w :: l) (65536 + (h - 55296) * 1024 + (w - 56320) :: s)%N.

Definition as_units (n : N) : option (list N) :=
  if (n <? 1114112)%N then Some (utf16_units n) else None.

(** ** The languages *)

(** Rust (reference, "String literals"): values are characters.  A raw carriage
    return is not allowed. *)
Definition rust_grammar : grammar := {|
  g_stop := stop_quote; g_pair := no_pair;
  g_raw := fun c => if N.eqb c 13 then None else Some [c];
  g_simple := fun c _ =>
    lookup (quote_escapes ++ nrt_escapes ++ single_quote_escape ++ [(chr "0", 0%N)]) c;
  g_number := fun c =>
    if N.eqb c (chr "x") then
      Some (exactly 2 (fun n => if (n <? 128)%N then Some [n] else None))
    else None;
  g_braced := fun c =>
    if N.eqb c (chr "u") then Some (mk_braced 6 as_scalar) else None
|}.

(** Swift (The Swift Programming Language, "String literals"). *)
Definition swift_grammar : grammar := {|
  g_stop := stop_quote; g_pair := no_pair;
  g_raw := fun c => if is_line_end c then None else Some [c];
  g_simple := fun c _ =>
    lookup (quote_escapes ++ nrt_escapes ++ single_quote_escape ++ [(chr "0", 0%N)]) c;
  g_number := fun _ => None;
  g_braced := fun c =>
    if N.eqb c (chr "u") then Some (mk_braced 8 as_scalar) else None
|}.

(** Java (JLS 3.10.5), applied after unicode escapes have been translated
    (below): values and input are UTF-16 code units. *)
Definition java_grammar : grammar := {|
  g_stop := stop_quote; g_pair := no_pair;
  g_raw := fun c => if is_line_end c then None else Some [c];
  g_simple := fun c _ =>
    lookup (quote_escapes ++ nrt_escapes ++ single_quote_escape ++
            [(chr "b", 8%N); (chr "f", 12%N); (chr "s", 32%N)]) c;
  g_number := fun _ => None;
  g_braced := no_braced
|}.

(** JLS 3.3: [\uXXXX] is translated anywhere in the source, if the backslash is
    preceded by an even number of backslashes.  [JEven]: that is so here;
    [JDigits]: inside an escape, after its backslash.  (Repeated [u]s are not covered.) *)
Inductive java_mode : Type :=
| JEven | JOdd | JDigits (n : nat) (acc : N).
Fixpoint java_translate (m : java_mode) (s : str) : option (list N) :=
  match s with
  | [] => match m with JDigits _ _ => None | _ => Some [] end
  | c :: r =>
      match m with
      | JEven =>
          if N.eqb c 92 then
            if next_is 117 (hd_error r)
            then java_translate (JDigits 0 0) r
            else option_map (cons c) (java_translate JOdd r)
          else option_map (app (utf16_units c)) (java_translate JEven r)
      | JOdd => option_map (app (utf16_units c)) (java_translate JEven r)
      | JDigits O _ => java_translate (JDigits 1 0) r     (* the letter u *)
      | JDigits n acc =>
          match hex_digit c with
          | None => None
          | Some d =>
              let acc := (acc * 16 + d)%N in
              if Nat.eqb n 4
              then option_map (cons acc) (java_translate JEven r)
              else java_translate (JDigits (S n) acc) r
          end
      end
  end.

(** JavaScript (ECMA-262, strict mode): [\0] must not be followed by a digit; an
    escaped character without special meaning denotes itself. *)
Definition is_digit (o : option N) : bool :=
  match o with
  | Some c => match dec_digit c with Some _ => true | None => false end
  | None => false
  end.
Definition js_simple (c : N) (next : option N) : option (list N) :=
  match lookup (nrt_escapes ++ bfv_escapes) c with
  | Some v => Some v
  | None =>
      if N.eqb c (chr "0") then if is_digit next then None else Some [0%N]
      else if is_digit (Some c) || is_line_end c || N.eqb c 8232 || N.eqb c 8233
           then None
      else Some (utf16_units c)
  end.
Definition js_number (c : N) : option number_escape :=
  if N.eqb c (chr "x") then Some (exactly 2 (fun n => Some [n]))
  else if N.eqb c (chr "u") then Some (exactly 4 (fun n => Some [n]))
  else None.
Definition js_braced (c : N) : option braced_escape :=
  if N.eqb c (chr "u") then Some (mk_braced 6 as_units) else None.
Definition js_grammar : grammar := {|
  g_stop := stop_quote; g_pair := no_pair;
  g_raw := fun c => if is_line_end c then None else Some (utf16_units c);
  g_simple := js_simple; g_number := js_number; g_braced := js_braced
|}.

(** JavaScript template text: it ends at a backtick or at [${]. *)
Definition js_template_stop (c : N) (next : option N) : bool :=
  N.eqb c (chr "`") ||
  (N.eqb c (chr "$") && next_is (chr "{") next).
Definition js_template_grammar : grammar := {|
  g_stop := js_template_stop; g_pair := no_pair;
  g_raw := fun c => if N.eqb c 13 then None else Some (utf16_units c);
  g_simple := js_simple; g_number := js_number; g_braced := js_braced
|}.

(** Dart (language specification, "Strings"): [$] starts an interpolation; an
    escaped character without special meaning denotes itself. *)
Definition dart_simple (c : N) (_ : option N) : option (list N) :=
  match lookup (nrt_escapes ++ bfv_escapes) c with
  | Some v => Some v
  | None => if is_line_end c then None else Some (utf16_units c)
  end.
Definition dart_grammar : grammar := {|
  g_stop := fun c _ => N.eqb c 34 || N.eqb c (chr "$"); g_pair := no_pair;
  g_raw := fun c => if is_line_end c then None else Some (utf16_units c);
  g_simple := dart_simple; g_number := js_number; g_braced := js_braced
|}.

(** Python (reference, "String and bytes literals"). *)
Definition python_grammar : grammar := {|
  g_stop := stop_quote; g_pair := no_pair;
  g_raw := fun c => if is_line_end c then None else Some [c];
  g_simple := fun c _ =>
    lookup (quote_escapes ++ nrt_escapes ++ bfv_escapes ++ single_quote_escape ++
            [(chr "a", 7%N)]) c;
  g_number := fun c =>
    if N.eqb c (chr "x") then Some (exactly 2 (fun n => Some [n]))
    else if N.eqb c (chr "u") then Some (exactly 4 (fun n => Some [n]))
    else if N.eqb c (chr "U") then
      Some (exactly 8 (fun n => if (n <? 1114112)%N then Some [n] else None))
    else None;
  g_braced := no_braced
|}.

(** Go (specification, "Interpreted string literals"): values are bytes; [\'] is
    not allowed in strings. *)
Definition as_utf8 (n : N) : option (list N) := if scalarb n then Some (utf8_char n) else None.
Definition go_grammar : grammar := {|
  g_stop := stop_quote; g_pair := no_pair;
  g_raw := fun c => if N.eqb c 10 then None else Some (utf8_char c);
  g_simple := fun c _ =>
    lookup (quote_escapes ++ nrt_escapes ++ bfv_escapes ++ [(chr "a", 7%N)]) c;
  g_number := fun c =>
    if N.eqb c (chr "x") then Some (exactly 2 (fun n => Some [n]))
    else if N.eqb c (chr "u") then Some (exactly 4 as_utf8)
    else if N.eqb c (chr "U") then Some (exactly 8 as_utf8)
    else None;
  g_braced := no_braced
|}.

(** C (C11/C17 6.4.3-6.4.5, UTF-8 execution character set): values are bytes;
    hexadecimal escapes take all following hexadecimal digits; a universal
    character name must not designate a character below 00A0 other than
    0024, 0040, 0060, nor a surrogate.  Trigraphs are not covered. *)
Definition c_ucn (n : N) : option (list N) :=
  if scalarb n && ((160 <=? n) || N.eqb n 36 || N.eqb n 64 || N.eqb n 96)%N
  then Some (utf8_char n) else None.
Definition c_grammar : grammar := {|
  g_stop := stop_quote; g_pair := no_pair;
  g_raw := fun c => if is_line_end c then None else Some (utf8_char c);
  g_simple := fun c _ =>
    lookup (quote_escapes ++ nrt_escapes ++ bfv_escapes ++ single_quote_escape ++
            [(chr "a", 7%N); (chr "?", 63%N)]) c;
  g_number := fun c =>
    if N.eqb c (chr "x") then
      Some (mk_number 1 (fun _ => true) (fun n => if (n <? 256)%N then Some [n] else None))
    else if N.eqb c (chr "u") then Some (exactly 4 c_ucn)
    else if N.eqb c (chr "U") then Some (exactly 8 c_ucn)
    else None;
  g_braced := no_braced
|}.

(** C# (language specification, "String literals"): values are UTF-16 code
    units; [\x] takes one to four hexadecimal digits. *)
Definition csharp_grammar : grammar := {|
  g_stop := stop_quote; g_pair := no_pair;
  g_raw := fun c =>
    if is_line_end c || N.eqb c 133 || N.eqb c 8232 || N.eqb c 8233 then None
    else Some (utf16_units c);
  g_simple := fun c _ =>
    lookup (quote_escapes ++ nrt_escapes ++ bfv_escapes ++ single_quote_escape ++
            [(chr "a", 7%N); (chr "0", 0%N)]) c;
  g_number := fun c =>
    if N.eqb c (chr "x") then
      Some (mk_number 1 (fun k => Nat.ltb k 4) (fun n => Some [n]))
    else if N.eqb c (chr "u") then Some (exactly 4 (fun n => Some [n]))
    else if N.eqb c (chr "U") then Some (exactly 8 as_units)
    else None;
  g_braced := no_braced
|}.

(** Nix (lexer rules for strings): backslash takes any character, only n, r and
    t are special; the text ends at the quote or at [${]; [$] followed by
    anything else than an opening brace, a quote or a backslash takes both. *)
Definition nix_grammar : grammar := {|
  g_stop := fun c next =>
    N.eqb c 34 || (N.eqb c (chr "$") && next_is (chr "{") next);
  g_pair := fun c next =>
    N.eqb c (chr "$") && negb (next_is (chr "{") next) && negb (next_is 34 next)
    && negb (next_is 92 next) && match next with Some _ => true | None => false end;
  g_raw := fun c => Some [c];
  g_simple := fun c _ =>
    match lookup nrt_escapes c with Some v => Some v | None => Some [c] end;
  g_number := fun _ => None;
  g_braced := no_braced
|}.

(** ** What a source text denotes *)

(** A text is a literal denoting [v], wherever it stands. *)
Definition denotes (g : grammar) (src : str) (v : list N) : Prop :=
  forall rest, read_literal g (src ++ rest) = Some (v, rest).

(** In Java the text after the literal is translated as well. *)
Definition java_denotes (src : str) (v : list N) : Prop :=
  forall rest after, java_translate JEven rest = Some after ->
  exists u, java_translate JEven (src ++ rest) = Some u /\
            read_literal java_grammar u = Some (v, after).

(** ** Finding the end of a literal, in any of the languages *)

(** The text after the first double quote that is not escaped. *)
Fixpoint after_literal (escaped : bool) (s : str) : option str :=
  match s with
  | [] => None
  | c :: r =>
      if escaped then after_literal false r
      else if N.eqb c 34 then Some r
      else after_literal (N.eqb c 92) r
  end.
Definition printable (c : N) : Prop := (32 <= c <= 126)%N.
