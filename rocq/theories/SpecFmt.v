(** * Specification vocabulary for formatting.

    Independent of the formatter's functions: it describes the output of a
    stream declaratively. *)
From Verif Require Import Tokens SpecTokens Fmt.

(** ** Symbolic output *)

(** Characters, and line separators emitted by the formatter (as opposed to
    newline characters inside texts). *)
Inductive sym : Type :=
| Ch (c : N)
| NL.

(** Concrete text, for a choice of newline string. *)
Definition sym_text (newline : str) (x : sym) : str :=
  match x with Ch c => [c] | NL => newline end.
Definition text (newline : str) (o : list sym) : str :=
  flat_map (sym_text newline) o.

(** Lines of a symbolic output: always at least one. *)
Fixpoint sym_lines (o : list sym) : list str :=
  match o with
  | [] => [[]]
  | NL :: o' => [] :: sym_lines o'
  | Ch c :: o' =>
      match sym_lines o' with
      | l :: ls => (c :: l) :: ls
      | [] => [[c]]
      end
  end.

(** Lines of a text, separated by the newline character (10). *)
Fixpoint text_lines (s : str) : list str :=
  match s with
  | [] => [[]]
  | c :: s' =>
      if N.eqb c 10 then [] :: text_lines s'
      else match text_lines s' with
           | l :: ls => (c :: l) :: ls
           | [] => [[c]]
           end
  end.

(** ** Layout *)

(** What a stream asks for, with all language-specific text written out. *)
Inductive atom : Type :=
| AText (s : str)
| ASpace
| APush
| ALine
| AIndent (n : Z).

Definition a_text (a : atom) : str := match a with AText s => s | _ => [] end.
Definition a_space (a : atom) : bool := match a with ASpace => true | _ => false end.
Definition a_line (a : atom) : bool := match a with ALine => true | _ => false end.
(** Push, line and actual indentation changes break the line. *)
Definition a_break (a : atom) : bool :=
  match a with
  | APush | ALine => true
  | AIndent n => negb (Z.eqb n 0)
  | _ => false
  end.
Definition a_indent (a : atom) : Z := match a with AIndent n => n | _ => 0%Z end.
Fixpoint net (l : list atom) : Z :=
  match l with [] => 0%Z | a :: l' => (a_indent a + net l')%Z end.

(** The part of a list after the last element satisfying [p] (all of it if
    there is none). *)
Fixpoint after_last {A} (p : A -> bool) (l : list A) : list A :=
  match l with
  | [] => []
  | x :: l' =>
      if existsb p l' then after_last p l'
      else if p x then l' else l
  end.

Definition count_spaces (gap : list atom) : nat := length (filter a_space gap).

Section Layout.
Context (indent : indentation_kind).

(** Indentation of a line at a level. *)
Definition pad (level : Z) : list sym :=
  let n := Z.to_nat (Z.max level 0) in
  match indent with
  | ISpace w => repeat (Ch 32) (n * w)
  | ITab => repeat (Ch 9) n
  end.
Definition blanks (n : nat) : list sym := repeat (Ch 32) n.

(** What separates a visible text from the previous one ([first] when there is
    none), given what was requested between them and the indentation level
    reached. *)
Definition separator (first : bool) (level : Z) (gap : list atom) : list sym :=
  if first then pad level ++ blanks (count_spaces gap)
  else if existsb a_line gap then
    [NL; NL] ++ pad level ++ blanks (count_spaces (after_last a_line gap))
  else if existsb a_break gap then
    [NL] ++ pad level ++ blanks (count_spaces (after_last a_break gap))
  else blanks (count_spaces gap).

(** The output of a sequence of atoms.  [first]: nothing visible so far;
    [level]: indentation level before the gap; [gap]: the requests since the
    last visible text. *)
Fixpoint layout_from (first : bool) (level : Z) (gap l : list atom) : list sym :=
  match l with
  | [] => []
  | a :: l' =>
      match a_text a with
      | [] => layout_from first level (gap ++ [a]) l'
      | s =>
          let level := (level + net gap)%Z in
          separator first level gap ++ map Ch s ++ layout_from false level [] l'
      end
  end.

Definition layout (l : list atom) : list sym := layout_from true 0 [] l.

End Layout.

(** ** From items to atoms, outside of quotes *)

Section Atoms.
Context {LI : Type} (ops : lang_ops LI).

(** Items that are not quote or evaluation markers. *)
Definition plain (x : item LI) : bool :=
  match x with
  | OpenQuote _ | CloseQuote | OpenEval | CloseEval => false
  | _ => true
  end.

Definition atoms_of (x : item LI) : list atom :=
  match x with
  | Literal s => [AText (content s)]
  | Lang _ l => map AText (l_format_item ops l)
  | Space => [ASpace]
  | Push => [APush]
  | Line => [ALine]
  | Indentation n => [AIndent n]
  | _ => []
  end.
Definition atoms (xs : list (item LI)) : list atom := flat_map atoms_of xs.

End Atoms.

(** ** Acceptance of quote structure *)

(** What is open at a point of the stream.  A nested quote is a quoted value
    inside a string literal. *)
Inductive bracket : Type := BQuote | BEval | BNested.

(** Drop brackets up to and including the innermost nested quote. *)
Fixpoint close_nested (b : list bracket) : option (list bracket) :=
  match b with
  | [] => None
  | BNested :: b' => Some b'
  | _ :: b' => close_nested b'
  end.

Definition step_bracket {LI} (b : list bracket) (x : item LI)
  : option (list bracket) :=
  match x with
  | OpenQuote e =>
      match b with
      | BQuote :: _ => if e then None else Some (BNested :: b)
      | _ => Some (BQuote :: b)
      end
  | CloseQuote =>
      match close_nested b with
      | Some b' => Some b'
      | None => match b with BQuote :: b' => Some b' | _ => None end
      end
  | OpenEval => match b with BQuote :: _ => Some (BEval :: b) | _ => None end
  | CloseEval =>
      match b with
      | BEval :: b' => Some b'
      | BQuote :: BEval :: b' => Some b'
      | _ => None
      end
  | _ => Some b
  end.

Fixpoint accepts {LI} (b : list bracket) (xs : list (item LI)) : bool :=
  match xs with
  | [] => true
  | x :: xs' =>
      match step_bracket b x with
      | Some b' => accepts b' xs'
      | None => false
      end
  end.

(** ** Well-formed documents *)

(** Code with string literals, string literals with interpolations, and quoted
    values inside string literals. *)
Inductive node (LI : Type) : Type :=
| NItem (x : item LI)                              (* anything but a quote *)
| NString (has_eval : bool) (ps : list (part LI))  (* a string literal *)
with part (LI : Type) : Type :=
| PItem (x : item LI)                   (* inside a string *)
| PQuoted (xs : list (item LI))         (* quoted value inside a string *)
| PEval (ns : list (node LI)).          (* interpolation *)
Arguments NItem {LI}. Arguments NString {LI}.
Arguments PItem {LI}. Arguments PQuoted {LI}. Arguments PEval {LI}.

Section Doc.
Context {LI : Type}.

Fixpoint node_items (n : node LI) : list (item LI) :=
  match n with
  | NItem x => [x]
  | NString e ps => OpenQuote e :: flat_map part_items ps ++ [CloseQuote]
  end
with part_items (p : part LI) : list (item LI) :=
  match p with
  | PItem x => [x]
  | PQuoted xs => OpenQuote false :: xs ++ [CloseQuote]
  | PEval ns => OpenEval :: flat_map node_items ns ++ [CloseEval]
  end.

Definition doc_items (ns : list (node LI)) : list (item LI) :=
  flat_map node_items ns.

(** Only plain items at the leaves. *)
Fixpoint node_ok (n : node LI) : bool :=
  match n with
  | NItem x => plain x
  | NString _ ps => forallb part_ok ps
  end
with part_ok (p : part LI) : bool :=
  match p with
  | PItem x => plain x
  | PQuoted xs => forallb plain xs
  | PEval ns => forallb node_ok ns
  end.
Definition doc_ok (ns : list (node LI)) : bool := forallb node_ok ns.

Context (ops : lang_ops LI) (cfg : config).

Definition texts (ss : list str) : list atom := map AText ss.

(** A quoted value as source text: opening quote, its own rendering on a fresh
    output, closing quote. *)
Definition quoted_source (xs : list (item LI)) : str :=
  text (c_newline cfg)
    (layout (c_indentation cfg)
       (texts (l_open_quote ops false) ++ atoms ops xs ++
        texts (l_close_quote ops false))).

Definition string_item (x : item LI) : list atom :=
  match x with
  | Literal s => texts (l_write_quoted ops (content s))
  | _ => atoms_of ops x
  end.

(** An interpolation of a single literal has its own syntax. *)
Definition single_literal (ns : list (node LI)) : option str :=
  match doc_items ns with [Literal s] => Some (content s) | _ => None end.

Fixpoint node_atoms (n : node LI) : list atom :=
  match n with
  | NItem x => atoms_of ops x
  | NString e ps =>
      texts (l_open_quote ops e) ++ flat_map part_atoms ps ++
      texts (l_close_quote ops e)
  end
with part_atoms (p : part LI) : list atom :=
  match p with
  | PItem x => string_item x
  | PQuoted xs => texts (l_write_quoted ops (quoted_source xs))
  | PEval ns =>
      match single_literal ns with
      | Some s => texts (l_string_eval_literal ops s)
      | None =>
          texts (l_start_string_eval ops) ++ flat_map node_atoms ns ++
          texts (l_end_string_eval ops)
      end
  end.

Definition doc_atoms (ns : list (node LI)) : list atom := flat_map node_atoms ns.

End Doc.

(** ** Lines *)

Definition is_blank (c : N) : bool := N.eqb c 32 || N.eqb c 9.

(** A text whose last character, if any, is not a blank. *)
Definition no_blank_end (s : str) : Prop :=
  forall s' c, s = s' ++ [c] -> is_blank c = false.

Definition no_newline (s : str) : Prop := ~ In 10%N s.

(** Indentation of a line at a level, as text. *)
Definition indent_text (indent : indentation_kind) (level : Z) : str :=
  let n := Z.to_nat (Z.max level 0) in
  match indent with
  | ISpace w => repeat 32%N (n * w)
  | ITab => repeat 9%N n
  end.

Definition visible (a : atom) : bool :=
  match a_text a with [] => false | _ => true end.

(** ** Registrations *)

Definition not_register {LI} (x : item LI) : bool :=
  match x with Register _ _ => false | _ => true end.

(** No registration directly after the start of an interpolation, or directly
    after the literal that starts one. *)
Definition quiet_evals {LI} (xs : list (item LI)) : Prop :=
  forall pre post, xs = pre ++ OpenEval :: post ->
  match post with
  | Register _ _ :: _ => False
  | Literal _ :: Register _ _ :: _ => False
  | _ => True
  end.

(** ** Sinks *)

(** Deliver chunks one after the other until one is refused. *)
Fixpoint deliver {W} (sink : str -> W -> W * bool) (chunks : list str) (w : W)
  : W * bool :=
  match chunks with
  | [] => (w, true)
  | s :: chunks' =>
      let '(w', ok) := sink s w in
      if ok then deliver sink chunks' w' else (w', false)
  end.

(** ** Layout of histories of calls *)

(** Calls that append text or request whitespace. *)
Inductive act : Type :=
| TText (s : str)
| TSpace | TPush | TLine | TIndent | TUnindent.

Definition act_call {LI} (a : act) : call LI :=
  match a with
  | TText s => CItem (Literal (Box s))
  | TSpace => CSpace
  | TPush => CPush
  | TLine => CLine
  | TIndent => CIndent
  | TUnindent => CUnindent
  end.

(** What is pending since the last text. *)
Record pending : Type := mk_pending {
  p_breaks : nat;    (* 0: same line, 1: new line, 2: blank line *)
  p_space : bool;    (* a space after the last break *)
  p_frozen : nat;    (* spaces followed by a line; only matter at the start *)
  p_indent : Z       (* change of indentation *)
}.
Definition nothing : pending := mk_pending 0 false 0 0.

Definition change_indent (k : Z) (p : pending) : pending :=
  let i := (p_indent p + k)%Z in
  if Z.eqb i 0 then nothing else mk_pending 1 false 0 i.

Definition request (a : act) (p : pending) : pending :=
  match a with
  | TText _ => p
  | TSpace => mk_pending (p_breaks p) true (p_frozen p) (p_indent p)
  | TPush => mk_pending (Nat.max (p_breaks p) 1) false (p_frozen p) (p_indent p)
  | TLine =>
      mk_pending 2 false (p_frozen p + if p_space p then 1 else 0) (p_indent p)
  | TIndent => change_indent 1 p
  | TUnindent => change_indent (-1) p
  end.

Section History.
Context (indent : indentation_kind).

Definition gap_text (first : bool) (level : Z) (p : pending) : list sym :=
  let sp := if p_space p then 1 else 0 in
  if first then pad indent level ++ blanks (p_frozen p + sp)
  else if Nat.eqb (p_breaks p) 0 then blanks sp
  else repeat NL (p_breaks p) ++ pad indent level ++ blanks sp.

Fixpoint history_from (first : bool) (level : Z) (p : pending) (h : list act)
  : list sym :=
  match h with
  | [] => []
  | TText s :: h' =>
      let level := (level + p_indent p)%Z in
      gap_text first level p ++ map Ch s ++ history_from false level nothing h'
  | a :: h' => history_from first level (request a p) h'
  end.
Definition history_layout (h : list act) : list sym :=
  history_from true 0 nothing h.
End History.

(** ** Results *)

(** What a run leaves in the sink, and whether it succeeded. *)
Definition outcome {W} (r : fstate W * bool) : W * bool := (f_write (fst r), snd r).

(** Encode a text and pass the bytes on. *)
Definition as_bytes {W} (write_all : list N -> W -> W * bool) (s : str) (w : W)
  : W * bool := write_all (utf8 s) w.

(** A sink that keeps everything it accepts; a refused write may still have
    taken part of the text.  [log] is what it kept. *)
Definition keeps {W} (sink : str -> W -> W * bool) (log : W -> str) : Prop :=
  forall s w, match sink s w with
  | (w', true) => log w' = log w ++ s
  | (w', false) => exists p q, s = p ++ q /\ log w' = log w ++ p
  end.

(** No quoted values inside string literals. *)
Fixpoint node_simple {LI} (n : node LI) : bool :=
  match n with
  | NItem _ => true
  | NString _ ps => forallb part_simple ps
  end
with part_simple {LI} (p : part LI) : bool :=
  match p with
  | PItem _ => true
  | PQuoted _ => false
  | PEval ns => forallb node_simple ns
  end.
