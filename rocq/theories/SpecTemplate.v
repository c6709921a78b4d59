(** * Specification: string literals with interpolations.

    How JavaScript (ECMA-262, template literals) and Dart (language specification,
    "String Interpolation") read them, written from the language references; and
    what a string in a document says.  A reader answers [None] for what is not a
    literal or not covered here: in interpolated code, single quotes and slashes
    (which may start comments and regular expressions), and in Dart raw and
    multi-line strings and line ends in interpolated code. *)
From Verif Require Import Str SpecStr Tokens Fmt SpecFmt SpecLex.

(** ** Reading *)
Record strings : Type := mk_strings {
  (* the character opens a string, which has this text and ends at the same character *)
  t_open : N -> option grammar;
  (* what starts with this is not covered *)
  t_strange : str -> bool
}.
(** Text, as the units the language stores, and the source of interpolated code. *)
Inductive said : Type :=
| SText (v : list N)
| SCode (src : str).

Definition is_letter (c : N) : bool :=
  ((65 <=? c) && (c <=? 90) || (97 <=? c) && (c <=? 122) || N.eqb c 95)%N.
Definition name_part (c : N) : bool := is_letter c || is_digit (Some c).
Fixpoint take_name (s : str) : str * str :=
  match s with
  | c :: r => if name_part c then let '(n, rest) := take_name r in (c :: n, rest) else ([], s)
  | [] => ([], [])
  end.
Definition before_all (a : str) (r : option (str * str)) : option (str * str) :=
  match r with Some (src, rest) => Some (a ++ src, rest) | None => None end.
Definition first_said (a : list said) (r : option (list said * str)) : option (list said * str) :=
  match r with Some (ps, rest) => Some (a ++ ps, rest) | None => None end.

Section Read.
Context (L : strings).
(** The rest of a string after the opening [q], and what follows it. *)
Fixpoint read_string (fuel : nat) (q : N) (g : grammar) (s : str) : option (list said * str) :=
  match fuel with
  | O => None
  | S f =>
      match lex g MText s with
      | Some (v, c :: r) =>
          if N.eqb c q then Some ([SText v], r)
          else if N.eqb c (chr "$") then
            match r with
            | x :: r' =>
                if N.eqb x (chr "{") then
                  match read_code f 0 r' with
                  | Some (src, r'') => first_said [SText v; SCode src] (read_string f q g r'')
                  | None => None
                  end
                else if is_letter x then
                  let '(n, r'') := take_name r in first_said [SText v; SCode n] (read_string f q g r'')
                else None
            | [] => None
            end
          else None
      | _ => None
      end
  end
(** The rest of code in braces, of which [depth] more are open, and what follows it. *)
with read_code (fuel : nat) (depth : nat) (s : str) : option (str * str) :=
  match fuel, s with
  | S f, c :: r =>
      if t_strange L s then None
      else if N.eqb c (chr "{") then before_all [c] (read_code f (S depth) r)
      else if N.eqb c (chr "}") then
        match depth with
        | O => Some ([], r)
        | S d => before_all [c] (read_code f d r)
        end
      else
        match t_open L c with
        | Some g =>
            match read_string f c g r with
            | Some (_, r') => before_all (c :: firstn (length r - length r') r) (read_code f depth r')
            | None => None
            end
        | None => before_all [c] (read_code f depth r)
        end
  | _, _ => None
  end.
(** A string at the start of a text: what it says, and what follows it. *)
Definition read (s : str) : option (list said * str) :=
  match s with
  | q :: r =>
      if t_strange L s then None
      else match t_open L q with Some g => read_string (S (length s)) q g r | None => None end
  | [] => None
  end.
End Read.

Definition starts (p s : str) : bool := str_eqb (firstn (length p) s) p.
Definition js_strings : strings := {|
  t_open := fun c =>
    if N.eqb c 34 then Some js_grammar else if N.eqb c (chr "`") then Some js_template_grammar else None;
  t_strange := fun s => starts $"'" s || starts $"/" s
|}.
Definition dart_strings : strings := {|
  t_open := fun c => if N.eqb c 34 then Some dart_grammar else None;
  t_strange := fun s =>
    starts $"'" s || starts $"/" s || starts ($"r" ++ [34%N]) s || starts [34; 34; 34]%N s ||
    starts [10%N] s || starts [13%N] s
|}.

(** ** What a string in a document says *)

(** Code text: braces match, no quotes, slashes and line ends. *)
Fixpoint depth_after (d : nat) (s : str) : option nat :=
  match s with
  | [] => Some d
  | c :: r =>
      if N.eqb c (chr "{") then depth_after (S d) r
      else if N.eqb c (chr "}") then match d with O => None | S d' => depth_after d' r end
      else if N.eqb c 34 || N.eqb c (chr "'") || N.eqb c (chr "`") || N.eqb c (chr "/") || is_line_end c
           then None
      else depth_after d r
  end.
Inductive says : Type :=
| Says (s : str)
| Does (src : str).
(** What a reader answers is that. *)
Definition means (x : said) (y : says) : Prop :=
  match x, y with
  | SText v, Says s => utf16_decodes v s
  | SCode src, Does src' => src = src'
  | _, _ => False
  end.

(** Atoms on one line, after [p] spaces: texts, a blank for each space. *)
Fixpoint on_line (p : nat) (l : list atom) : str :=
  match l with
  | [] => repeat 32%N p
  | a :: l' =>
      match a_text a with
      | [] => on_line (if a_space a then S p else p) l'
      | s => repeat 32%N p ++ s ++ on_line 0 l'
      end
  end.

Section Says.
Context {LI : Type} (ops : lang_ops LI) (cfg : config).
(** Which text can be read back; what may precede a string in code; how an
    interpolation of one text may be written, given the first character of the
    text after it. *)
Context (text_ok : bool -> str -> Prop) (opens_after : N -> bool) (single_ok : str -> option N -> Prop).

Definition inline_text (x : item LI) : option str :=
  match x with
  | Literal s => Some (content s)
  | Lang _ l => Some (concat (l_format_item ops l))
  | Register _ _ => Some []
  | _ => None
  end.
(** The first character of the constant text. *)
Fixpoint text_head (ps : list (part LI)) : option N :=
  match ps with
  | PItem (Literal s) :: ps' => match content s with c :: _ => Some c | [] => text_head ps' end
  | _ => None
  end.
(** Code, [d] braces open and [c] the last character before it, and afterwards. *)
Inductive code_fine : N -> nat -> list (node LI) -> N -> nat -> Prop :=
| fine_nil c d : code_fine c d [] c d
| fine_space c d ns c' d' : code_fine 32 d ns c' d' -> code_fine c d (NItem Space :: ns) c' d'
| fine_text c d x s d1 ns c' d' : inline_text x = Some s -> depth_after d s = Some d1 ->
    code_fine (last s c) d1 ns c' d' -> code_fine c d (NItem x :: ns) c' d'
| fine_string c d e ps out ns c' d' : opens_after c = true -> string_says e [] ps out ->
    code_fine 34 d ns c' d' -> code_fine c d (NString e ps :: ns) c' d'
(** A string with the parts [ps], after the text [acc] since the last interpolation. *)
with string_says : bool -> str -> list (part LI) -> list says -> Prop :=
| says_end e acc : text_ok e acc -> string_says e acc [] [Says acc]
| says_text e acc s ps out : string_says e (acc ++ content s) ps out ->
    string_says e acc (PItem (Literal s) :: ps) out
| says_code acc ns c ps out : text_ok true acc -> single_literal ns = None -> code_fine (chr "{") 0 ns c 0 ->
    string_says true [] ps out ->
    string_says true acc (PEval ns :: ps) (Says acc :: Does (on_line 0 (doc_atoms ops cfg ns)) :: out)
| says_single acc ns s ps out : text_ok true acc -> single_literal ns = Some s -> single_ok s (text_head ps) ->
    string_says true [] ps out ->
    string_says true acc (PEval ns :: ps) (Says acc :: Does s :: out).
End Says.

(** JavaScript: see C25 and C26 for text that cannot be read back. *)
Definition js_text_ok (e : bool) (s : str) : Prop :=
  valid s /\ ~ In 17%N s /\ ~ In 18%N s /\
  (forall p d q, s = p ++ 0%N :: d :: q -> is_digit (Some d) = false) /\
  (e = true -> ~ In (chr "`") s /\ forall p q, s <> p ++ chr "$" :: chr "{" :: q).
Definition js_opens_after (_ : N) : bool := true.
Definition js_single_ok (s : str) (_ : option N) : Prop := depth_after 0 s = Some 0.
(** Dart: see C27; a name, which the text after it does not continue. *)
Definition dart_text_ok (_ : bool) (s : str) : Prop := valid s /\ ~ In 17%N s /\ ~ In 18%N s.
Definition dart_single_ok (s : str) (next : option N) : Prop :=
  (exists c r, s = c :: r /\ is_letter c = true /\ forallb name_part r = true) /\
  match next with Some c => name_part c = false | None => True end.
Definition dart_opens_after (c : N) : bool := negb (N.eqb c (chr "r") || N.eqb c 34).
