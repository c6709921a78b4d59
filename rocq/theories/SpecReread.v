(** * Specification: reading quoted code again.

    Source text and the tokens in it, texts that differ in white space only, and
    a reader of code as Rust reads it. *)
From Verif Require Import Str SpecStr Tokens Macro SpecMacro Parse SpecParse SpecLex.

(** ** Source text *)
Definition is_white (c : N) : bool := N.eqb c 32 || N.eqb c 9 || N.eqb c 10 || N.eqb c 13.
Definition all_white (s : str) : Prop := Forall (fun c => is_white c = true) s.

(** The position after a text: lines end at line feeds. *)
Fixpoint advance (p : pos) (w : str) : pos :=
  match w with
  | [] => p
  | c :: w' =>
      advance (if N.eqb c 10 then mk_pos (S (p_line p)) 0 else mk_pos (p_line p) (S (p_col p))) w'
  end.
(** The text, which starts at [p], consists of these tokens at their positions, and
    of white space. *)
Inductive written : pos -> str -> list (cursor * str) -> Prop :=
| written_end p : written p [] []
| written_white p c s l : is_white c = true -> written (advance p [c]) s l -> written p (c :: s) l
| written_token p w s l : w <> [] -> written (advance p w) s l ->
    written p (w ++ s) ((mk_cursor p (advance p w), w) :: l).

(** Every line but the first starts further right than, or at, the line before it,
    or in a column of an enclosing line. *)
Definition starts_fit (cs : list cursor) : Prop :=
  forall before col after, line_starts cs = before ++ col :: after -> before <> [] -> may_start before col.

(** ** The same but for white space *)

(** The first text consists of the first words, the second of the second words, with
    white space in the same places. *)
Inductive respaced : list (str * str) -> str -> str -> Prop :=
| respaced_end b b' : all_white b -> all_white b' -> respaced [] b b'
| respaced_word b b' w w' ws s s' : all_white b -> all_white b' -> (b = [] <-> b' = []) ->
    respaced ws s s' -> respaced ((w, w') :: ws) (b ++ w ++ s) (b' ++ w' ++ s').

(** What white space separates. *)
Fixpoint words (s : str) : list str :=
  match s with
  | [] => []
  | c :: r =>
      if is_white c then words r
      else
        match r with
        | [] => [[c]]
        | d :: _ =>
            if is_white d then [c] :: words r
            else match words r with w :: ws => (c :: w) :: ws | [] => [[c]] end
        end
  end.

(** ** Reading code *)

Inductive token : Type :=
| WName (s : str)
| WNumber (s : str)
| WPunct (c : N) (joint : bool)      (* directly in front of more punctuation *)
| WString (v : list N)
| WChar (s : str)
| WOpen (d : delimiter)
| WClose (d : delimiter).

Definition in_range (a b c : N) : bool := N.leb a c && N.leb c b.
Definition digit_char (c : N) : bool := in_range 48 57 c.
Definition name_first (c : N) : bool := in_range 97 122 c || in_range 65 90 c || N.eqb c 95.
Definition name_char (c : N) : bool := name_first c || digit_char c.
(** [!#$%&*+,-./:;<=>?@^|~] *)
Definition punct_char (c : N) : bool :=
  existsb (N.eqb c) [33; 35; 36; 37; 38; 42; 43; 44; 45; 46; 47; 58; 59; 60; 61; 62; 63; 64; 94; 124; 126]%N.
Definition bracket (c : N) : option token :=
  if N.eqb c 40 then Some (WOpen Parenthesis) else if N.eqb c 123 then Some (WOpen Brace)
  else if N.eqb c 91 then Some (WOpen Bracket) else if N.eqb c 41 then Some (WClose Parenthesis)
  else if N.eqb c 125 then Some (WClose Brace) else if N.eqb c 93 then Some (WClose Bracket) else None.
Definition next_satisfies (f : N -> bool) (s : str) : bool :=
  match s with c :: _ => f c | [] => false end.
Fixpoint take_while (f : N -> bool) (s : str) : str * str :=
  match s with
  | c :: r => if f c then let '(a, b) := take_while f r in (c :: a, b) else ([], s)
  | [] => ([], [])
  end.
(** Digits and letters; a point if a digit follows it, with what comes then, or if
    neither a name nor another point does. *)
Definition number (s : str) : str * str :=
  let '(a, r) := take_while name_char s in
  match r with
  | 46%N :: r' =>
      if next_satisfies digit_char r' then let '(b, r'') := take_while name_char r' in (a ++ 46%N :: b, r'')
      else if next_satisfies (fun c => name_first c || N.eqb c 46) r' then (a, r)
      else (a ++ [46%N], r')
  | _ => (a, r)
  end.
(** After [']: the rest of a character literal, or nothing if it is a lifetime. *)
Fixpoint char_end (s : str) : option (str * str) :=
  match s with
  | c :: r =>
      if N.eqb c 39 then Some ([c], r)
      else if is_white c then None
      else match char_end r with Some (a, b) => Some (c :: a, b) | None => None end
  | [] => None
  end.
Definition char_literal (s : str) : option (str * str) :=
  match s with
  | c :: r =>
      if N.eqb c 92 then
        match r with
        | d :: r' =>
            if is_white d then None
            else match char_end r' with Some (a, b) => Some (c :: d :: a, b) | None => None end
        | [] => None
        end
      else if existsb (N.eqb c) [39; 9; 10; 13]%N then None
      else match r with d :: r' => if N.eqb d 39 then Some ([c; d], r') else None | [] => None end
  | [] => None
  end.
(** Not covered: comments, raw strings and names, byte and C strings, exponents with
    a sign, characters outside of ASCII but in strings and character literals. *)
Definition odd_name (n r : str) : bool :=
  existsb (str_eqb n) [$"r"; $"b"; $"br"; $"c"; $"cr"] &&
  next_satisfies (fun c => N.eqb c 34 || N.eqb c 39 || N.eqb c 35) r.
Definition odd_number (n r : str) : bool :=
  (N.eqb (last n 0%N) 101 || N.eqb (last n 0%N) 69) && next_satisfies (fun c => N.eqb c 43 || N.eqb c 45) r.

Section Read.
Context (g : grammar).
(** A token at the start of a text, and what follows it. *)
Definition read_token (s : str) : option (token * str) :=
  match s with
  | [] => None
  | c :: r =>
      if N.eqb c 34 then
        match read_literal g s with Some (v, r') => Some (WString v, r') | None => None end
      else if N.eqb c 39 then
        match char_literal r with
        | Some (a, b) => Some (WChar (c :: a), b)
        | None => if next_satisfies name_first r then Some (WPunct c true, r) else None
        end
      else if name_first c then
        let '(a, b) := take_while name_char s in
        if odd_name a b then None else Some (WName a, b)
      else if digit_char c then
        let '(a, b) := number s in
        if odd_number a b then None else Some (WNumber a, b)
      else if punct_char c then
        if N.eqb c 47 && next_satisfies (fun d => N.eqb d 47 || N.eqb d 42) r then None
        else Some (WPunct c (next_satisfies punct_char r), r)
      else match bracket c with Some k => Some (k, r) | None => None end
  end.
(** The tokens of a text that starts at [p], and where they are. *)
Fixpoint read_from (fuel : nat) (p : pos) (s : str) : option (list (cursor * token)) :=
  match fuel, s with
  | _, [] => Some []
  | O, _ => None
  | S f, c :: r =>
      if is_white c then read_from f (advance p [c]) r
      else
        match read_token s with
        | Some (k, r') =>
            let q := advance p (firstn (length s - length r') s) in
            match read_from f q r' with
            | Some l => Some ((mk_cursor p q, k) :: l)
            | None => None
            end
        | None => None
        end
  end.
Definition read_at (p : pos) (s : str) : option (list (cursor * token)) := read_from (length s) p s.
(** The tokens of a text. *)
Definition read_code (s : str) : option (list token) := option_map (map snd) (read_at (mk_pos 1 0) s).
End Read.

(** The tokens of token trees, with the values of string literals. *)
Fixpoint tree_tokens (t : tree) : list (cursor * token) :=
  match t with
  | TIdent c s => [(c, WName s)]
  | TLit c s => [(c, WNumber s)]
  | TPunct c ch j => [(c, WPunct ch j)]
  | TStr c _ v => [(c, WString v)]
  | TChar c s _ => [(c, WChar s)]
  | TGroup c d ts =>
      (opener_at c, WOpen d) :: flat_map tree_tokens ts ++ [(closer_at c, WClose d)]
  end.
Definition trees_tokens (ts : list tree) : list (cursor * token) := flat_map tree_tokens ts.
(** Strings as another language stores them. *)
Definition map_string (f : list N -> list N) (k : token) : token :=
  match k with WString v => WString (f v) | k => k end.
