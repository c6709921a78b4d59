(** * Reading quotes (C61 - C63).

    Vocabulary: [SpecParse.v] (the grammar of quotes, text of token trees) and
    [SpecMacro.v] (tokens of a quote, source text). *)
From Verif Require StrFacts.
From Verif Require Import Str Tokens SpecTokens TokensRun Values Fmt SpecFmt OutputFacts
  Macro SpecMacro Parse SpecParse ParseFacts Source PropsFmt PropsMacro.

(** ** C61: the grammar *)

Theorem C61_grammar : forall LI E P X (R : rust LI E P X), consuming R -> forall ts qs,
  parse R ts = Some qs <-> reads R ts qs.
Proof. intros LI E P X R C ts qs. split; [apply parse_sound|apply parse_complete; exact C]. Qed.
Print Assumptions C61_grammar.
(** [quote_in!] takes an expression, as Rust reads it, an arrow and a quote. *)
Theorem C61_quote_in : forall LI E P X (R : rust LI E P X), consuming R -> forall ts x qs,
  parse_in R ts = Some (x, qs) <->
  exists a1 a2 j rest, r_expr R ts = Some (x, TPunct a1 61 true :: TPunct a2 62 j :: rest) /\ reads R rest qs.
Proof.
  intros LI E P X R C ts x qs. unfold parse_in. destruct (r_expr R ts) as [[y l]|] eqn:Q; cbn [bind].
  - destruct (arrow l) as [l'|] eqn:A; cbn [bind].
    + apply arrow_some in A as (c1 & c2 & j & ->). split.
      * intros H. destruct (parse R l') as [q|] eqn:D; cbn [bind] in H; [|discriminate]. injection H as <- <-. exists c1, c2, j, l'. split; [reflexivity|]. apply C61_grammar; assumption.
      * intros (a1 & a2 & j' & rest & H & W). injection H as <- _ _ _ <-. apply C61_grammar in W; [|assumption]. rewrite W. reflexivity.
    + split; [discriminate|]. intros (a1 & a2 & j & rest & H & W). injection H as <- ->. discriminate A.
  - split; [discriminate|]. intros (a1 & a2 & j & rest & H & W). discriminate H.
Qed.
Print Assumptions C61_quote_in.
Example C61_quote_in_example :
  let source := $"tokens => let x;" in
  exists ts a1 a2 rest, trees source = Some ts /\
  r_expr (table_rust (@no_table nat)) ts = Some ($"tokens", TPunct a1 61 true :: TPunct a2 62 false :: rest) /\
  quote_in_text (@no_table nat) source [] (build [CItem (Literal (Static $"a")); CPush]) =
    Some (build [CItem (Literal (Static $"a")); CPush; CItem (Literal (Static $"let")); CSpace; CItem (Literal (Static $"x;"))]).
Proof. eexists _, _, _, _. split; [vm_compute; reflexivity|]. split; vm_compute; reflexivity. Qed.

(** ** C62: tokens stand for themselves *)

Section Plain.
Context {LI E P X : Type} (R : rust LI E P X).
Definition text_leaf (p : cursor * str) : cursor * leaf LI E := (fst p, LText (snd p)).

Lemma tree_ind' : forall Q : tree -> Prop,
  (forall t, match t with TGroup _ _ _ => False | _ => True end -> Q t) ->
  (forall c d ts, Forall Q ts -> Q (TGroup c d ts)) -> forall t, Q t.
Proof.
  intros Q A G. fix IH 1. intros t. destruct t; try (apply A; exact I). apply G.
  induction ts as [|t ts IHts]; constructor; [apply IH|exact IHts].
Qed.

Lemma tokens_app : forall (a b : list (quoted_item LI E)), all_tokens (a ++ b) = all_tokens a ++ all_tokens b.
Proof. intros a b. unfold all_tokens. apply flat_map_app. Qed.
(** Reading something in front of something. *)
Definition in_front (ts : list tree) (out : list (cursor * leaf LI E)) : Prop :=
  forall rest qs, reads R rest qs -> exists qs', reads R (ts ++ rest) qs' /\ all_tokens qs' = out ++ all_tokens qs.
Lemma front_nil : in_front [] [].
Proof. intros rest qs W. exists qs. auto. Qed.
Lemma front_app : forall a b x y, in_front a x -> in_front b y -> in_front (a ++ b) (x ++ y).
Proof.
  intros a b x y A B rest qs W. destruct (B _ _ W) as (q1 & W1 & T1). destruct (A _ _ W1) as (q2 & W2 & T2).
  exists q2. rewrite <- !app_assoc. split; [exact W2|]. rewrite T2, T1. reflexivity.
Qed.
Lemma front_group : forall c d ts x, in_front ts x ->
  in_front [TGroup c d ts] ((opener_at c, LText (opener d)) :: x ++ [(closer_at c, LText (closer d))]).
Proof.
  intros c d ts x H rest qs W. destruct (H [] [] ltac:(constructor)) as (q & W1 & T1). rewrite !app_nil_r in *.
  exists (QGroup c d q :: qs). split; [apply reads_group; assumption|].
  cbn [all_tokens flat_map tokens_of app]. change (flat_map tokens_of q) with (all_tokens q). rewrite T1. reflexivity.
Qed.
Lemma front_plain : forall t, plain t -> ~ dollar t -> in_front [t] [(tree_cursor t, LText (tree_text R t))].
Proof.
  intros t N D rest qs W. exists (QText (tree_cursor t) (tree_text R t) :: qs). split; [|reflexivity].
  apply reads_plain; [exact N|contradiction|exact W].
Qed.
Lemma front_variable : forall a i b name, ~ In name keywords ->
  in_front [TPunct a 36 i; TIdent b name]
    [(spanning a b, LOther (QEval (spanning a b) (r_variable R name)))].
Proof. intros a i b name N rest qs W. eexists. split; [apply reads_variable; [exact N|exact W]|reflexivity]. Qed.
Lemma front_list : forall (f : tree -> list tree) (g : tree -> list (cursor * leaf LI E)) ts,
  Forall (fun t => in_front (f t) (g t)) ts -> in_front (flat_map f ts) (flat_map g ts).
Proof. intros f g ts H. induction H; [apply front_nil|]. cbn [flat_map]. apply front_app; assumption. Qed.
Lemma map_flat_map : forall {A B C} (f : A -> list B) (g : B -> C) l,
  map g (flat_map f l) = flat_map (fun x => map g (f x)) l.
Proof. intros A B C f g l. induction l; [reflexivity|]. cbn [flat_map]. rewrite map_app, IHl. reflexivity. Qed.

Lemma front_doubled : forall t, no_strings t = true ->
  exists out, in_front (double t) out /\ map snd out = map (fun p => LText (snd p)) (flat t) /\
  (no_dollars t = true -> out = map text_leaf (flat t)).
Proof.
  intros t. induction t as [t A|c d ts IH] using tree_ind'; intros N.
  - destruct (match t with TPunct _ ch _ => N.eqb ch 36 | _ => false end) eqn:D.
    + destruct t; try discriminate. apply N.eqb_eq in D as ->. cbn [double]. rewrite N.eqb_refl.
      exists [(spanning c c, LText $"$")]. split; [|split; [reflexivity|cbn; discriminate]].
      intros rest qs W. exists (QDollar (spanning c c) :: qs). split; [apply reads_dollar; exact W|reflexivity].
    + exists (map text_leaf (flat t)).
      assert (Q : double t = [t]) by (destruct t; try reflexivity; cbn [double]; rewrite ?D; [reflexivity|contradiction]).
      assert (F : map text_leaf (flat t) = [(tree_cursor t, LText (tree_text R t))]) by (destruct t; try reflexivity; contradiction).
      rewrite Q, F. split; [|split; [destruct t; try reflexivity; contradiction|reflexivity]].
      apply front_plain; [destruct t; cbn in *; try tauto; discriminate|].
      destruct t; cbn in *; try tauto. intros ->. discriminate.
  - cbn [no_strings] in N.
    assert (L : exists out, in_front (flat_map double ts) out /\
      map snd out = map (fun p => LText (snd p)) (flats ts) /\
      (forallb no_dollars ts = true -> out = map text_leaf (flats ts))). {
      unfold flats. induction IH as [|t ts IHt _ IHts]; [exists []; split; [apply front_nil|auto]|].
      cbn [forallb] in N. apply andb_prop in N. destruct N as [N1 N2].
      destruct (IHt N1) as (x & X1 & X2 & X3). destruct (IHts N2) as (y & Y1 & Y2 & Y3). exists (x ++ y).
      cbn [flat_map]. split; [apply front_app; assumption|]. rewrite !map_app, X2, Y2. split; [reflexivity|].
      cbn [forallb]. intros D. apply andb_prop in D. rewrite X3, Y3 by tauto. reflexivity. }
    destruct L as (out & O1 & O2 & O3). cbn [double].
    exists ((opener_at c, LText (opener d)) :: out ++ [(closer_at c, LText (closer d))]).
    split; [apply front_group; exact O1|]. cbn [flat map]. fold (flats ts). rewrite !map_app, O2. split; [reflexivity|].
    cbn [no_dollars]. intros D. rewrite (O3 D). reflexivity.
Qed.
Lemma front_doubled_list : forall ts, forallb no_strings ts = true ->
  exists out, in_front (flat_map double ts) out /\ map snd out = map (fun p => LText (snd p)) (flats ts) /\
  (forallb no_dollars ts = true -> out = map text_leaf (flats ts)).
Proof.
  intros ts. unfold flats. induction ts as [|t ts IH]; intros N; [exists []; split; [apply front_nil|auto]|].
  cbn [forallb] in N. apply andb_prop in N. destruct N as [N1 N2].
  destruct (front_doubled t N1) as (x & X1 & X2 & X3). destruct (IH N2) as (y & Y1 & Y2 & Y3). exists (x ++ y).
  cbn [flat_map]. split; [apply front_app; assumption|]. rewrite !map_app, X2, Y2. split; [reflexivity|].
  cbn [forallb]. intros D. apply andb_prop in D. rewrite X3, Y3 by tauto. reflexivity.
Qed.
Lemma double_plain : forall t, no_dollars t = true -> double t = [t].
Proof.
  intros t. induction t as [t A|c d ts IH] using tree_ind'; intros N.
  - destruct t; try reflexivity; [|contradiction]. cbn [double no_dollars] in *. destruct (N.eqb ch 36); [discriminate|reflexivity].
  - cbn [double no_dollars] in *. f_equal. f_equal. induction IH as [|t ts H _ IHts]; [reflexivity|].
    cbn [forallb flat_map] in *. apply andb_prop in N. destruct N as [N1 N2]. rewrite H, IHts by assumption. reflexivity.
Qed.
Lemma front_text : forall ts, forallb no_strings ts = true -> forallb no_dollars ts = true ->
  in_front ts (map text_leaf (flats ts)).
Proof.
  intros ts N D. destruct (front_doubled_list ts N) as (out & O1 & _ & O3). rewrite O3 in O1 by exact D.
  replace (flat_map double ts) with ts in O1; [exact O1|]. clear N O1 O3.
  induction ts as [|t ts IH]; [reflexivity|]. cbn [forallb flat_map] in *. apply andb_prop in D. destruct D as [D1 D2].
  rewrite double_plain by exact D1. cbn [app]. rewrite <- IH by exact D2. reflexivity.
Qed.
End Plain.

(** Tokens other than dollar signs and string literals stand for themselves, in
    order, within brackets of any depth. *)
Theorem C62_tokens : forall LI E P X (R : rust LI E P X), consuming R -> forall ts,
  forallb no_strings ts = true -> forallb no_dollars ts = true ->
  exists qs, parse R ts = Some qs /\ all_tokens qs = map (fun p => (fst p, LText (snd p))) (flats ts).
Proof.
  intros LI E P X R C ts N D. destruct (front_text R ts N D [] [] ltac:(constructor)) as (qs & W & T).
  rewrite !app_nil_r in *. exists qs. split; [|exact T]. apply C61_grammar; assumption.
Qed.
Print Assumptions C62_tokens.

(** So a quote of such tokens renders the lines of its source. *)
Theorem C62_source : forall LI E P X (R : rust LI E P X), consuming R ->
  forall (ops : lang_ops LI) cfg ts row ls,
  forallb no_strings ts = true -> forallb no_dollars ts = true ->
  map (@text_leaf LI E) (flats ts) = source_tokens row ls -> Forall words_ok ls -> laid_out ls ->
  exists qs, parse R ts = Some qs /\ forall e, exists t, quote qs e = Some (e, t) /\
  outcome (format_items ops cfg string_writer (items t) (formatter_new [])) =
    (join (c_newline cfg) (output_lines (c_indentation cfg) [] ls), true).
Proof.
  intros LI E P X R C ops cfg ts row ls N D T W L. destruct (C62_tokens _ _ _ _ R C ts N D) as (qs & Q & A).
  exists qs. split; [exact Q|]. intros e. apply (C54_source LI E ops cfg qs row ls); [|exact W|exact L].
  rewrite A. exact T.
Qed.
Print Assumptions C62_source.

(** With its dollar signs doubled, any sequence of tokens without string literals
    can be quoted: the text is that of the tokens. *)
Theorem C62_doubled : forall LI E P X (R : rust LI E P X), consuming R -> forall ts,
  forallb no_strings ts = true ->
  exists qs, parse R (flat_map double ts) = Some qs /\
  map snd (all_tokens qs) = map (fun p => LText (snd p)) (flats ts).
Proof.
  intros LI E P X R C ts N. destruct (front_doubled_list R ts N) as (out & O & T & _).
  destruct (O [] [] ltac:(constructor)) as (qs & W & A). rewrite !app_nil_r in *.
  exists qs. split; [apply C61_grammar; assumption|]. rewrite A. exact T.
Qed.
Print Assumptions C62_doubled.

(** ** C63: variables at any depth *)

(** A variable within any brackets is evaluated there, between what precedes and
    what follows it. *)
Theorem C63_variable : forall LI E P X (R : rust LI E P X), consuming R ->
  forall ctx pre a i b name post,
  ~ In name keywords ->
  forallb no_strings (pre ++ post) = true -> forallb no_dollars (pre ++ post) = true ->
  Forall (fun '(l, _, _, r) => forallb no_strings (l ++ r) = true /\ forallb no_dollars (l ++ r) = true) ctx ->
  exists qs, parse R (surround ctx (pre ++ [TPunct a 36 i; TIdent b name] ++ post)) = Some qs /\
  all_tokens qs =
    map text_leaf (left_of ctx (flats pre)) ++
    (spanning a b, LOther (QEval (spanning a b) (r_variable R name))) ::
    map text_leaf (right_of ctx (flats post)).
Proof.
  intros LI E P X R C ctx pre a i b name post N S0 D0 F.
  set (v := (spanning a b, LOther (QEval (spanning a b) (r_variable R name)))).
  assert (G : in_front R (surround ctx (pre ++ [TPunct a 36 i; TIdent b name] ++ post))
    (map text_leaf (left_of ctx (flats pre)) ++ [v] ++ map text_leaf (right_of ctx (flats post)))). {
    unfold surround, left_of, right_of.
    assert (Y : forall hole x l r, in_front R hole (map text_leaf l ++ x ++ map text_leaf r) ->
      in_front R (fold_left (fun h '(l, c, d, r) => l ++ [TGroup c d h] ++ r) ctx hole)
        (map text_leaf (fold_left (fun h '(l, c, d, r) => flats l ++ [(opener_at c, opener d)] ++ h) ctx l) ++ x ++
         map text_leaf (fold_left (fun h '(l, c, d, r) => h ++ [(closer_at c, closer d)] ++ flats r) ctx r))). {
      clear S0 D0. induction F as [|[[[l c] d] r] ctx [F1 F2] _ IH]; intros hole x l0 r0 H; [exact H|]. cbn [fold_left]. apply IH.
      rewrite forallb_app in F1, F2. apply andb_prop in F1. apply andb_prop in F2.
      rewrite !map_app, <- !app_assoc. apply front_app; [apply front_text; tauto|].
      pose proof (front_app R _ _ _ _ (front_group R c d hole _ H) (front_text R r ltac:(tauto) ltac:(tauto))) as Z.
      cbn [app map] in *. rewrite <- !app_assoc in Z. exact Z. }
    apply Y. rewrite forallb_app in S0, D0. apply andb_prop in S0. apply andb_prop in D0.
    apply front_app; [apply front_text; tauto|]. apply front_app; [exact (front_variable R a i b name N)|apply front_text; tauto]. }
  destruct (G [] [] ltac:(constructor)) as (qs & W & T). rewrite !app_nil_r in *.
  exists qs. split; [apply C61_grammar; assumption|exact T].
Qed.
Print Assumptions C63_variable.

(** The words a variable cannot have as its name: the keywords of Rust, the words Rust
    reserves, and the underscore. *)
Definition strict_keywords : list str :=
  [$"as"; $"async"; $"await"; $"break"; $"const"; $"continue"; $"crate"; $"dyn"; $"else"; $"enum"; $"extern"; $"false"; $"fn"; $"for"; $"if";
   $"impl"; $"in"; $"let"; $"loop"; $"match"; $"mod"; $"move"; $"mut"; $"pub"; $"ref"; $"return"; $"self"; $"Self"; $"static"; $"struct";
   $"super"; $"trait"; $"true"; $"type"; $"unsafe"; $"use"; $"where"; $"while"].
Definition reserved_keywords : list str :=
  [$"abstract"; $"become"; $"box"; $"do"; $"final"; $"macro"; $"override"; $"priv"; $"try"; $"typeof"; $"unsized"; $"virtual"; $"yield"].
Definition no_names : list str := strict_keywords ++ reserved_keywords ++ [$"_"].
Lemma no_names_keywords name : In name no_names <-> In name keywords.
Proof.
  assert (S : forall l m, forallb (fun x => existsb (str_eqb x) m) l = true -> forall x, In x l -> In x m).
  { intros l m F x I. rewrite forallb_forall in F. specialize (F x I). apply existsb_exists in F as (y & J & Q). apply StrFacts.str_eqb_eq in Q as ->. exact J. }
  split; apply S; vm_compute; reflexivity.
Qed.
(** A dollar sign in front of any other word is the variable; in front of one of these
    both stand for themselves. *)
Theorem C63_names : forall LI E P X (R : rust LI E P X) a i b name,
  (parse R [TPunct a 36 i; TIdent b name] = Some [QEval (spanning a b) (r_variable R name)] <-> ~ In name no_names) /\
  (parse R [TPunct a 36 i; TIdent b name] = Some [QText a (tree_text R (TPunct a 36 i)); QText b (tree_text R (TIdent b name))] <-> In name no_names).
Proof.
  intros LI E P X R a i b name. rewrite no_names_keywords. destruct (keyword name) eqn:K.
  - assert (I0 : In name keywords) by (unfold keyword in K; apply existsb_exists in K as (y & J & Q); apply StrFacts.str_eqb_eq in Q as ->; exact J).
    assert (Q : parse R [TPunct a 36 i; TIdent b name] = Some [QText a (tree_text R (TPunct a 36 i)); QText b (tree_text R (TIdent b name))]).
    { unfold parse, whole. cbn -[keyword]. rewrite K. reflexivity. }
    rewrite Q. split; split; try tauto; try discriminate.
  - pose proof (proj1 (keyword_false name) K) as I0.
    assert (Q : parse R [TPunct a 36 i; TIdent b name] = Some [QEval (spanning a b) (r_variable R name)]).
    { unfold parse, whole. cbn -[keyword]. rewrite K. reflexivity. }
    rewrite Q. split; split; try tauto; try discriminate.
Qed.
Print Assumptions C63_names.
Example C63_names_example : ~ In $"yields" no_names /\ In $"yield" no_names.
Proof. split; vm_compute; intuition discriminate. Qed.

(** ** Examples *)

Definition demo_table : table nat :=
  mk_table [] [($"a < b", fun e => (true, e))]
    [($"i in 0 . . 3", fun _ => map (fun s e => ($"i", VStr s) :: e) [$"0"; $"1"; $"2"])]
    [($"z", fun e => (1, e))] [($"k = v", fun e => ($"k", VStr $"w") :: e)] [].
Definition printed (src : str) (e : environment nat) : option str :=
  option_map (fun t => fst (outcome (format_items demo_ops (mk_config (ISpace 2) [10%N]) string_writer (items t) (formatter_new []))))
    (quote_text demo_table src e).

(** Every form. *)
Example C61_example :
  printed $"fn main() {
      x = [1, $y];
      $(if a < b { yes } else { no })
      $(for i in 0..3 join (, ) => <$i>)

      $(match z { A => 1, B(c) if c => (2) C => { $$3 } })$(let k = v)$k
      $[str](s $x $(b) $[const](""c""))$[' ']""q"" $$ $self $(""l"")
}" [($"y", VStr $"why")] =
  Some $"fn main() {
  x = [1, why];
  yes
  <0>, <1>, <2>

  2w
  `s $x $b c` ""q"" $ $self l
}".
Proof. vm_compute. reflexivity. Qed.
Example C61_accepted : exists ts, trees $"a $(if x { b } else { c }) $[str](d)" = Some ts /\
  consuming (table_rust demo_table) /\ parse (table_rust demo_table) ts <> None.
Proof. eexists. split; [vm_compute; reflexivity|]. split; [apply table_consuming|vm_compute; discriminate]. Qed.
Example C61_rejected :
  map (fun src => quote_text demo_table src [])
    [$"$[other](a)"; $"$['x']"; $"$(if x)"; $"$(for i in x { a } b)"; $"$[' '](a)"; $"$[str](a $1)"] =
  repeat None 6.
Proof. vm_compute. reflexivity. Qed.

Definition demo_text : str := $"fn main() {
    a

        b[c, (d)]
}".
Example C62_example : exists ts, trees demo_text = Some ts /\
  forallb no_strings ts = true /\ forallb no_dollars ts = true /\
  map (@text_leaf nat nat) (flats ts) = source_tokens 1
    [mk_src_line 0 0 $"fn" [(1, $"main"); (0, $"("); (0, $")"); (1, $"{")];
     mk_src_line 0 4 $"a" [];
     mk_src_line 1 8 $"b" [(0, $"["); (0, $"c"); (0, $","); (1, $"("); (0, $"d"); (0, $")"); (0, $"]")];
     mk_src_line 0 0 $"}" []] /\
  printed demo_text [] = Some $"fn main() {
  a

    b[c, (d)]
}".
Proof. eexists. split; [vm_compute; reflexivity|]. vm_compute. auto. Qed.
Example C62_doubled_example :
  printed $"a$$b($$$$c $$ 1)" [($"b", VStr $"?"); ($"c", VStr $"?")] = Some $"a$b($$c $ 1)".
Proof. vm_compute. reflexivity. Qed.
Example C63_example :
  trees $"a(b[c $x d]) e" = option_map (fun ts => surround
    [([TIdent (mk_cursor (mk_pos 1 2) (mk_pos 1 3)) $"b"], mk_cursor (mk_pos 1 3) (mk_pos 1 11), Bracket, []);
     ([TIdent (mk_cursor (mk_pos 1 0) (mk_pos 1 1)) $"a"], mk_cursor (mk_pos 1 1) (mk_pos 1 12), Parenthesis,
      [TIdent (mk_cursor (mk_pos 1 13) (mk_pos 1 14)) $"e"])] ts)
    (Some ([TIdent (mk_cursor (mk_pos 1 4) (mk_pos 1 5)) $"c"] ++
       [TPunct (mk_cursor (mk_pos 1 6) (mk_pos 1 7)) 36 false; TIdent (mk_cursor (mk_pos 1 7) (mk_pos 1 8)) $"x"] ++
       [TIdent (mk_cursor (mk_pos 1 9) (mk_pos 1 10)) $"d"])) /\
  printed $"a(b[c $x d]) e" [($"x", VStr $"1")] = Some $"a(b[c 1 d]) e".
Proof. vm_compute. auto. Qed.

(** Deviation: not so in strings.  Within brackets there, an interpolation is text. *)
Theorem C63_string_refuted :
  printed $"$[str](a $x $(y))" [] = Some $"`a $x $y`" /\
  printed $"$[str](a ($x) [$(y)])" [] = Some $"""a ( $ x ) [ $ ( y ) ]""".
Proof. vm_compute. auto. Qed.
Print Assumptions C63_string_refuted.
