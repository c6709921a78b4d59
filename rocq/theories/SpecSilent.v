(** * Specification: interpolations that show nothing.

    Lines of source some of whose words show nothing, e.g. [$(if ..)] whose
    condition is false, and the lines without them. *)
From Verif Require Import Str Tokens SpecTokens Values Fmt SpecFmt SpecFile Macro SpecMacro SpecWords.

(** ** Lines without some of their words *)
Section Kept.
Context {W : Type}.

(** [None] stands for a word that shows nothing. *)
Definition line_words (l : line_of (option W)) : list (nat * option W) := (0, ln_word l) :: ln_more l.
(** Without a word, the blanks before and after it come together. *)
Fixpoint kept (g : nat) (ws : list (nat * option W)) : list (nat * W) :=
  match ws with
  | [] => []
  | (g', Some w) :: ws' => (g + g', w) :: kept 0 ws'
  | (g', None) :: ws' => kept (g + g') ws'
  end.
Definition kept_line (l : line_of (option W)) : option (line_of W) :=
  match kept 0 (line_words l) with
  | [] => None
  | (_, w) :: more => Some (mk_line_of (ln_empty l) (ln_col l) w more)
  end.
(** A line without words is omitted; the empty lines before and after it come
    together ([k] empty lines so far). *)
Fixpoint kept_lines (k : nat) (ls : list (line_of (option W))) : list (line_of W) :=
  match ls with
  | [] => []
  | l :: ls' =>
      match kept_line l with
      | None => kept_lines (k + ln_empty l) ls'
      | Some l' => mk_line_of (k + ln_empty l) (ln_col l') (ln_word l') (ln_more l') :: kept_lines 0 ls'
      end
  end.

(** Where words may show nothing: a line of them starts where the next line
    starts; if they start a line, the first word that is kept follows them without
    blanks; and if they start the quote, there are no blanks between them. *)
Definition aligned_empty (ls : list (line_of (option W))) : Prop :=
  forall before l l' after, ls = before ++ l :: l' :: after -> kept_line l = None -> ln_col l = ln_col l'.
Definition starts_kept (l : line_of (option W)) : Prop :=
  match kept 0 (line_words l) with
  | (g, _) :: _ => g = 0
  | [] => True
  end.
Fixpoint starts_tight (ls : list (line_of (option W))) : Prop :=
  match ls with
  | [] => True
  | l :: ls' => kept_line l = None -> Forall (fun '(g, _) => g = 0) (ln_more l) /\ starts_tight ls'
  end.
Definition removable (ls : list (line_of (option W))) : Prop :=
  aligned_empty ls /\ Forall starts_kept ls /\ starts_tight ls.
End Kept.

(** ** What is shown *)
Section Silent.
Context {LI E : Type} (ops : lang_ops LI) (cfg : config).

(** A token that adds nothing to the stream. *)
Definition hides (l : leaf LI E) (e e' : E) : Prop :=
  match l with
  | LText _ => False
  | LOther x => (exists t, quote [x] e = Some (e', t)) /\ fst (quote_mean [x] e) = []
  end.
(** What a token shows, if anything; it ends at the level at which it starts. *)
Definition may_show (l : leaf LI E) (e : E) (d : option (list (node LI))) (e' : E) : Prop :=
  match d with
  | Some ns => shows ops cfg l e ns e' /\ open_levels ops cfg ns = 0%Z
  | None => hides l e e'
  end.
Fixpoint all_may_show (ws : list (leaf LI E)) (e : E) (ds : list (option (list (node LI)))) (e' : E) : Prop :=
  match ws, ds with
  | [], [] => e' = e
  | w :: ws', d :: ds' => exists e1, may_show w e d e1 /\ all_may_show ws' e1 ds' e'
  | _, _ => False
  end.
Definition lines_may_show (ls : list (line_of (src_word LI E))) (e : E) (ds : list (line_of (option (list (node LI))))) (e' : E) : Prop :=
  map (map_line (fun _ => tt)) ls = map (map_line (fun _ => tt)) ds /\
  all_may_show (map sw_leaf (flat_map words_of ls)) e (flat_map words_of ds) e'.
End Silent.
