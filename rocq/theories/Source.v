(** * Quotes as text.

    A reader of Rust source text, enough for the quotes of /repo and for examples:
    what the compiler hands to the macros for a given text.  This is not code of
    /repo but of its compiler.  Not covered: raw and byte strings, escapes other
    than those below, floating point numbers, lifetimes, block comments, text
    outside of ASCII. *)
From Verif Require Import Str Tokens SpecTokens TokensRun Values Macro Parse SpecParse.

(** ** Tokens *)

(** A character with its position: lines from 1, columns from 0. *)
Fixpoint positions (line col : nat) (s : str) : list (pos * N) :=
  match s with
  | [] => []
  | ch :: s =>
      (mk_pos line col, ch) ::
      (if N.eqb ch 10 then positions (S line) 0 s else positions line (S col) s)
  end.

Definition within (a b ch : N) : bool := N.leb a ch && N.leb ch b.
Definition digit (ch : N) : bool := within 48 57 ch.
Definition name_start (ch : N) : bool := within 97 122 ch || within 65 90 ch || N.eqb ch 95.
Definition name_char (ch : N) : bool := name_start ch || digit ch.
Definition white (ch : N) : bool := N.eqb ch 32 || N.eqb ch 10.
(** Characters of operators and other punctuation: [!#$%&*+,-./:;<=>?@^|~]. *)
Definition punct (ch : N) : bool :=
  existsb (N.eqb ch) [33; 35; 36; 37; 38; 42; 43; 44; 45; 46; 47; 58; 59; 60; 61; 62; 63; 64; 94; 124; 126]%N.
Definition opening (ch : N) : option delimiter :=
  if N.eqb ch 40 then Some Parenthesis else if N.eqb ch 123 then Some Brace
  else if N.eqb ch 91 then Some Bracket else None.
Definition closing (ch : N) : option delimiter :=
  if N.eqb ch 41 then Some Parenthesis else if N.eqb ch 125 then Some Brace
  else if N.eqb ch 93 then Some Bracket else None.
Definition escape (ch : N) : option N :=
  if N.eqb ch 110 then Some 10%N else if N.eqb ch 114 then Some 13%N
  else if N.eqb ch 116 then Some 9%N else if N.eqb ch 92 then Some 92%N
  else if N.eqb ch 34 then Some 34%N else if N.eqb ch 39 then Some 39%N else None.

Definition after (p : pos) : pos := mk_pos (p_line p) (S (p_col p)).
Definition text (s : list (pos * N)) : str := map snd s.

(** The longest prefix of characters of a kind. *)
Fixpoint prefix (f : N -> bool) (s : list (pos * N)) : list (pos * N) * list (pos * N) :=
  match s with
  | (p, ch) :: s' => if f ch then let '(a, b) := prefix f s' in ((p, ch) :: a, b) else ([], s)
  | [] => ([], [])
  end.
(** Up to the closing quote: source, value, position of the quote and the rest. *)
Fixpoint string_end (s : list (pos * N)) : option (str * str * pos * list (pos * N)) :=
  match s with
  | [] => None
  | (p, 34%N) :: s => Some ([34%N], [], p, s)
  | (_, 92%N) :: (_, ch) :: s =>
      bind (escape ch) (fun v =>
      bind (string_end s) (fun '(src, val, p, s) => Some (92%N :: ch :: src, v :: val, p, s)))
  | (_, ch) :: s =>
      bind (string_end s) (fun '(src, val, p, s) => Some (ch :: src, ch :: val, p, s))
  end.
(** End of a token of one line that starts at [p]. *)
Definition across (p : pos) (s : str) : cursor :=
  mk_cursor p (mk_pos (p_line p) (p_col p + length s)).

Inductive lexeme : Type :=
| Open (p : pos) (d : delimiter)
| Close (p : pos) (d : delimiter)
| Token (t : tree).

Fixpoint lexemes (n : nat) (s : list (pos * N)) : option (list lexeme) :=
  match n with
  | O => None
  | S n =>
      match s with
      | [] => Some []
      | (_, 47%N) :: (_, 47%N) :: s =>      (* // comment *)
          lexemes n (snd (prefix (fun ch => negb (N.eqb ch 10)) s))
      | (p, 34%N) :: s =>                   (* string literal *)
          bind (string_end s) (fun '(src, val, q, s) =>
          bind (lexemes n s) (fun l =>
            Some (Token (TStr (mk_cursor p (after q)) (34%N :: src) val) :: l)))
      | (p, 39%N) :: (_, 92%N) :: (_, ch) :: (_, 39%N) :: s =>   (* character literals *)
          bind (escape ch) (fun v =>
          bind (lexemes n s) (fun l =>
            let src := [39%N; 92%N; ch; 39%N] in Some (Token (TChar (across p src) src v) :: l)))
      | (p, 39%N) :: (_, ch) :: (_, 39%N) :: s =>
          bind (lexemes n s) (fun l =>
            let src := [39%N; ch; 39%N] in Some (Token (TChar (across p src) src ch) :: l))
      | (p, ch) :: s' =>
          if white ch then lexemes n s'
          else if name_start ch then
            let '(a, b) := prefix name_char s in
            bind (lexemes n b) (fun l => Some (Token (TIdent (across p (text a)) (text a)) :: l))
          else if digit ch then
            let '(a, b) := prefix name_char s in
            bind (lexemes n b) (fun l => Some (Token (TLit (across p (text a)) (text a)) :: l))
          else if punct ch then
            bind (lexemes n s') (fun l =>
              Some (Token (TPunct (across p [ch]) ch
                (match s' with (_, ch') :: _ => punct ch' | [] => false end)) :: l))
          else
            match opening ch, closing ch with
            | Some d, _ => bind (lexemes n s') (fun l => Some (Open p d :: l))
            | _, Some d => bind (lexemes n s') (fun l => Some (Close p d :: l))
            | None, None => None
            end
      end
  end.

(** ** Groups *)

Definition delimiter_eqb (a b : delimiter) : bool :=
  match a, b with
  | Parenthesis, Parenthesis | Brace, Brace | Bracket, Bracket => true
  | _, _ => false
  end.
(** [done] is what has been read of the innermost group, last first; [stack] are
    the groups around it. *)
Fixpoint groups (done : list tree) (stack : list (pos * delimiter * list tree))
    (l : list lexeme) : option (list tree) :=
  match l with
  | [] => match stack with [] => Some (rev done) | _ => None end
  | Token t :: l => groups (t :: done) stack l
  | Open p d :: l => groups [] ((p, d, done) :: stack) l
  | Close q d :: l =>
      match stack with
      | (p, d', outer) :: stack =>
          if delimiter_eqb d d' then
            groups (TGroup (mk_cursor p (after q)) d (rev done) :: outer) stack l
          else None
      | [] => None
      end
  end.

(** The token trees of a text. *)
Definition trees (s : str) : option (list tree) :=
  bind (lexemes (S (length s)) (positions 1 0 s)) (groups [] []).

(** ** Meaning of the Rust in a quote

    Variables are looked up in an environment; what other expressions mean is
    given by a table for their text. *)

Definition environment (LI : Type) : Type := list (str * value LI).
Definition lookup {A} (default : A) (k : str) (l : list (str * A)) : A :=
  match find (fun p => str_eqb (fst p) k) l with Some p => snd p | None => default end.

Record table (LI : Type) : Type := mk_table {
  t_value : list (str * (environment LI -> value LI));              (* $(..) *)
  t_bool : list (str * (environment LI -> bool * environment LI));  (* if .. *)
  t_each : list (str * (environment LI -> list (environment LI -> environment LI)));  (* for .. *)
  t_select : list (str * (environment LI -> nat * environment LI)); (* match .. *)
  t_let : list (str * (environment LI -> environment LI));          (* let .. *)
  t_code : list (str * (environment LI -> list (call LI)))          (* ref .. *)
}.
Arguments mk_table {_}. Arguments t_value {_}. Arguments t_bool {_}. Arguments t_each {_}.
Arguments t_select {_}. Arguments t_let {_}. Arguments t_code {_}.
Definition no_table {LI} : table LI := mk_table [] [] [] [] [] [].

(** Text of tokens, separated by spaces. *)
Definition source_key (ts : list tree) : str :=
  join $" " (flat_map (fix go (t : tree) : list str :=
    match t with
    | TIdent _ s | TLit _ s | TStr _ s _ | TChar _ s _ => [s]
    | TPunct _ ch _ => [[ch]]
    | TGroup _ d ts => open_char d :: flat_map go ts ++ [close_char d]
    end) ts).

(** The tokens in front of the first place where [stop] holds. *)
Fixpoint until (stop : list tree -> bool) (ts : list tree) : list tree * list tree :=
  if stop ts then ([], ts)
  else match ts with
       | t :: ts => let '(a, b) := until stop ts in (t :: a, b)
       | [] => ([], [])
       end.
Definition read_until (stop : list tree -> bool) (ts : list tree) : option (str * list tree) :=
  let '(a, b) := until stop ts in
  match a with [] => None | _ => Some (source_key a, b) end.
Definition at_arrow (ts : list tree) : bool :=
  match ts with TPunct _ 61 true :: TPunct _ 62 _ :: _ => true | _ => false end.
Definition at_word (w : str) (ts : list tree) : bool :=
  match ts with TIdent _ s :: _ => str_eqb s w | _ => false end.
Definition at_brace (ts : list tree) : bool :=
  match ts with TGroup _ Brace _ :: _ => true | _ => false end.
Definition at_equals (ts : list tree) : bool :=
  match ts with TPunct _ 61 _ :: _ => true | _ => false end.

Definition table_rust {LI} (T : table LI) : rust LI (environment LI) str str := {|
  r_pat := read_until (fun ts => at_word $"in" ts || at_equals ts);
  r_pats := read_until (fun ts => at_word $"if" ts || at_arrow ts);
  r_expr := read_until at_arrow;
  r_head := fun input => read_until (fun ts =>
    at_arrow ts || (at_brace ts && negb (at_word $"if" input)) || at_word $"join" ts) input;
  r_variable := fun name e => (lookup (VStr []) name e, e);
  r_value := fun x e => (lookup (fun _ => VStr []) x (t_value T) e, e);
  r_bool := fun x e => lookup (fun e => (false, e)) x (t_bool T) e;
  r_each := fun p x e => (lookup (fun _ => []) (p ++ $" in " ++ x) (t_each T) e, e);
  r_select := fun x arms e => lookup (fun e => (length arms, e)) x (t_select T) e;
  r_let := fun p x => lookup (fun e => e) (p ++ $" = " ++ x) (t_let T);
  r_code := fun name code e =>
    (lookup (fun _ => []) (name ++ $" => " ++ source_key code) (t_code T) e, e);
  r_effect := fun _ e => e;
  r_show := fun _ d ts => source_key [TGroup (mk_cursor (mk_pos 0 0) (mk_pos 0 0)) d ts]
|}.

(** [quote!] and [quote_in!] of a text. *)
Definition quote_text {LI} (T : table LI) (s : str) (e : environment LI) : option (tokens LI) :=
  bind (trees s) (fun ts =>
  bind (parse (table_rust T) ts) (fun qs =>
  bind (quote qs e) (fun r => Some (snd r)))).
Definition quote_in_text {LI} (T : table LI) (s : str) (e : environment LI) (t : tokens LI)
  : option (tokens LI) :=
  bind (trees s) (fun ts =>
  bind (parse_in (table_rust T) ts) (fun '(_, qs) =>
  bind (quote_in qs e t) (fun r => Some (snd r)))).

Lemma read_until_consumes : forall stop, consumes (read_until stop).
Proof.
  intros stop ts x rest. unfold read_until.
  assert (U : forall l, l = fst (until stop l) ++ snd (until stop l)). {
    induction l as [|t l IH]; cbn [until]; destruct (stop _); try reflexivity.
    destruct (until stop l) as [a b]. cbn [fst snd app] in *. rewrite <- IH. reflexivity. }
  specialize (U ts). destruct (until stop ts) as [[|t a] b]; [discriminate|]. intros H. injection H as _ <-.
  exists (t :: a). exact U.
Qed.
Lemma table_consuming : forall LI (T : table LI), consuming (table_rust T).
Proof. intros LI T. repeat split; try apply read_until_consumes. intros ts. apply read_until_consumes. Qed.
