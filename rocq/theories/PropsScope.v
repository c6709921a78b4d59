(** * Names bound in quotes (C81).

    Vocabulary: [SpecScope.v] (where names are in scope), [SpecShadow.v] (quotes
    that bind no name that is in use outside), [Scope.v] (the generated code run
    with Rust's scopes). *)
From Verif Require Import Str StrFacts Tokens SpecTokens TokensRun TokensFacts Values ValuesFacts SpecFmt Macro SpecMacro SpecQuote MacroFacts MacroSem
  Scope SpecScope ScopeSem SpecShadow ShadowFacts PropsMacro PropsControl.

(** ** Scopes *)

(** The code of a quote, run with the scopes of Rust, supplies what the quote
    means with names in scope where they should be, but that in loops with a
    separator a name of the generated code is in scope; nothing bound in a quote is
    in scope after it. *)
Theorem C81_scopes : forall LI names store own (qs : list (quoted_item LI (names * store))) e t,
  accepted qs -> exists e',
  quote_in_scoped own qs e t = Some (e', extend (fst (quote_mean_scoped own qs e)) t) /\
  snd e' = snd (snd (quote_mean_scoped own qs e)) /\ fst e' = fst e.
Proof.
  intros LI names store own qs e t A. rewrite quote_gives. unfold accepted in A. destruct (quote_code qs); [|congruence]. cbn [option_map].
  exists (snd (quote_mean_scoped own qs e)). split; [reflexivity|]. split; [reflexivity|]. unfold quote_mean_scoped, inside. destruct (block_mean_with _ _ _ _). reflexivity.
Qed.
Print Assumptions C81_scopes.
(** [quote!] is [quote_in!] with a new stream. *)
Theorem C81_quote : forall LI names store own (qs : list (quoted_item LI (names * store))) e,
  quote_scoped own qs e = quote_in_scoped own qs e new.
Proof. reflexivity. Qed.
Print Assumptions C81_quote.

(** Of all elements only [$(let ..)] leaves names behind: on its own, in a group,
    or in an interpolation of a string. *)
Fixpoint binding {LI E} (x : quoted_item LI E) : bool :=
  match x with
  | QLet _ _ => true
  | QGroup _ _ qs => existsb binding qs
  | QString _ _ ps => existsb binding_part ps
  | _ => false
  end
with binding_part {LI E} (p : string_item LI E) : bool :=
  match p with PEval _ qs => existsb binding qs | _ => false end.
Lemma enter_names {LI names store} c (st : mstate LI (names * store)) : m_env (enter_chunks c st) = m_env st.
Proof. unfold enter_chunks. destruct (enter c (m_place st)) as [[? ?]|]; reflexivity. Qed.
Lemma loop_names {LI names store} (m j : names * store -> list (item LI) * (names * store)) bs : forall e,
  fst (snd (loop_scoped m j bs e)) = fst e.
Proof.
  induction bs as [|b bs IH]; intros e; [reflexivity|]. rewrite loop_scoped_cons. unfold inside at 1. destruct (m (b e)) as [i f].
  destruct (match bs with [] => ([], f) | _ => inside j f end) as [s g]. specialize (IH (fst e, snd g)).
  destruct (loop_scoped m j bs (fst e, snd g)) as [r h]. exact IH.
Qed.
Theorem C81_restored : forall LI names store own (x : quoted_item LI (names * store)) st,
  binding x = false -> fst (m_env (mean_scoped own x st)) = fst (m_env st).
Proof.
  intros LI names store own.
  enough (H : (forall x : quoted_item LI (names * store), forall st, binding x = false -> fst (m_env (mean_scoped own x st)) = fst (m_env st)) /\
    (forall x : string_item LI (names * store), forall a K e, binding_part x = false -> fst (snd (string_mean_scoped own x (a, K, e))) = fst e)) by exact (proj1 H).
  assert (L : forall qs, Forall (fun x : quoted_item LI (names * store) => forall st, binding x = false -> fst (m_env (mean_scoped own x st)) = fst (m_env st)) qs ->
     existsb binding qs = false -> forall st, fst (m_env (fold_left (fun st x => mean_scoped own x st) qs st)) = fst (m_env st)).
  { induction 1 as [|x qs Hx _ IH]; intros B st; [reflexivity|]. cbn [existsb] in B. apply orb_false_iff in B as [B1 B2]. cbn [fold_left]. rewrite IH, Hx; auto. }
  apply quoted_string_ind; try (intros; cbn [mean_scoped put m_env]; rewrite ?enter_names; reflexivity).
  - intros c d qs F st B. cbn [mean_scoped put m_env]. rewrite enter_names, L by auto. cbn [put m_env]. rewrite enter_names. reflexivity.
  - intros c p ps F st B. rewrite scoped_string. cbv zeta. rewrite enter_names. cbn [binding] in B.
    enough (G : forall a K e, fst (snd (fold_left (fun st x => string_mean_scoped own x st) ps (a, K, e))) = fst e).
    { specialize (G (inner_start p) [] (m_env st)). destruct (fold_left _ ps _) as [[a K] e]. exact G. }
    change (existsb binding_part ps = false) in B. clear st. induction F as [|x ps Hx _ IH]; intros a K e; [reflexivity|]. cbn [existsb] in B. apply orb_false_iff in B as [B1 B2].
    cbn [fold_left]. specialize (Hx a K e B1). destruct (string_mean_scoped own x (a, K, e)) as [[a1 K1] e1]. cbn [snd] in Hx. rewrite IH; auto.
  - intros c v st _. cbn [mean_scoped]. rewrite enter_names. unfold inside. destruct (v _). reflexivity.
  - intros c v st _. cbn [mean_scoped]. rewrite enter_names. unfold inside. destruct (v _). reflexivity.
  - intros c it join body _ _ st _. cbn [mean_scoped]. rewrite enter_names. unfold inside at 1. destruct (it _) as [bs e]. cbn [put_items m_env].
    destruct join as [[paren js]|]; [unfold inside; destruct (loop_scoped _ _ bs _); reflexivity|]. rewrite loop_names. reflexivity.
  - intros c cond a b _ _ st _. cbn [mean_scoped put_items m_env]. rewrite enter_names. unfold inside. destruct (cond (m_env st)) as [y e]. cbn [fst snd].
    destruct y; [destruct (block_mean_with _ _ a e); reflexivity|]. destruct b as [b|]; [|reflexivity]. destruct (block_mean_with _ _ b _). reflexivity.
  - intros c sel arms _ st _. cbn [mean_scoped put_items m_env]. rewrite enter_names. unfold inside. destruct (sel _) as [i e].
    match goal with |- context [let '(_, _) := ?X in _] => destruct X end. reflexivity.
  - intros c f st B. discriminate B.
  - intros c v a K e _. cbn [string_mean_scoped]. unfold inside. destruct (v e). reflexivity.
  - intros c qs F a K e B. rewrite scoped_eval. specialize (L qs F B (mk_mstate (start_of (Some (eval_span c qs))) [] e)). unfold block_mean_with.
    cbn [snd]. rewrite enter_names. exact L.
Qed.
Print Assumptions C81_restored.

(** ** Without shadowing *)

(** Where no body binds a name that is in use outside, all that is proved about
    running quotes without scopes holds with scopes: the same stream, the same
    effects. *)
Theorem C81_unshadowed : forall LI value store (qs : list (quoted_item LI ((str -> option value) * store))) vs vs' e t e1 t1,
  fits_all [] vs qs vs' -> quote_in qs e t = Some (e1, t1) ->
  exists e2, quote_in_scoped own_it qs e t = Some (e2, t1) /\ snd e2 = snd e1.
Proof.
  intros LI value store qs vs vs' e t e1 t1 F Q. rewrite quote_gives. unfold quote_in in Q. destruct (quote_code qs) as [[r code]|] eqn:C; [|discriminate].
  cbn [option_map snd] in Q. rewrite (quote_supplies _ _ _ C e t) in Q. assert (Q' : (snd (quote_mean qs e), extend (fst (quote_mean qs e)) t) = (e1, t1)) by congruence.
  apply pair_equal_spec in Q' as [<- <-]. clear Q. cbn [option_map].
  destruct (proj2 (block_body [] vs None qs vs' (proj1 (proj2 unshadowed) _ _ _ _ F)) e e) as [Q [[_ S] _]]; [intros x []|split; auto|].
  unfold quote_mean_scoped, inside, quote_mean, block_mean. 
  destruct (block_mean_with mean None qs e) as [i1 g1]. destruct (block_mean_with (mean_scoped own_it) None qs e) as [i2 g2]. cbn [fst snd] in *. subst i2.
  eexists. split; [reflexivity|]. symmetry. exact S.
Qed.
Print Assumptions C81_unshadowed.

(** ** Examples *)
Notation demo_env := ((str -> option Z) * nat)%type.
Definition set_name (x : str) (v : Z) (e : demo_env) : demo_env := (fun y => if str_eqb y x then Some v else fst e y, snd e).
Definition let_ (line col : nat) (src x : str) (v : Z) : quoted_item nat demo_env := QLet (word line col src) (set_name x v).
(** [$x], counting evaluations *)
Definition name_ (line col : nat) (x : str) : quoted_item nat demo_env :=
  QEval (word line col ($"$" ++ x)) (fun e => (VInt (match fst e x with Some v => v | None => -1 end), (fst e, S (snd e)))).
Definition each_ (x : str) (vs : list Z) : demo_env -> list (demo_env -> demo_env) * demo_env :=
  fun e => (map (set_name x) vs, e).
Definition nowhere : demo_env := (fun _ => None, 0).
Definition texts_of (o : option (demo_env * tokens nat)) : option (list (item nat)) := option_map (fun r => items (snd r)) o.

(** [$(let x = 1)$(for y in [2, 3] join (, ) => $y)$x]: no shadowing. *)
Definition plain_loop (x y : str) : list (quoted_item nat demo_env) :=
  [let_ 1 0 $"$(let x = 1)" x 1;
   QLoop (word 1 12 $"$(for y in [2, 3] join (, ) => $y)") (each_ y [2; 3]%Z)
     (Some (mk_cursor (mk_pos 1 35) (mk_pos 1 39), [tok 1 36 $","])) [name_ 1 43 y];
   name_ 1 46 x].
Lemma uses_name vs x : In x vs -> uses vs (fun e : demo_env => (@VInt nat (match fst e x with Some v => v | None => -1 end), (fst e, S (snd e)))).
Proof.
  intros H. split; [reflexivity|]. intros e e' [A B]. split; [cbn; rewrite A by exact H; reflexivity|]. split; [exact A|]. cbn. rewrite B. reflexivity.
Qed.
Lemma binds_name vs x v : binds vs [x] (only (set_name x v)).
Proof.
  split.
  - intros e y N. cbn. destruct (str_eqb y x) eqn:Q; [|reflexivity]. apply str_eqb_eq in Q. subst. exfalso. apply N. left. reflexivity.
  - intros e e' [A B]. split; [reflexivity|]. split; [|exact B]. intros y Y. cbn in Y. cbn. destruct Y as [<-|Y]; [|rewrite A by exact Y; reflexivity].
    assert (str_eqb x x = true) as -> by (apply str_eqb_eq; reflexivity). reflexivity.
Qed.
Example C81_fits : fits_all [] [] (plain_loop $"x" $"y") [$"x"].
Proof.
  eapply fits_cons; [apply (fits_let [] [] _ _ [$"x"]); [apply binds_name|intros x _ H; inversion H]|].
  apply (fits_cons [] [$"x"] _ [$"x"]); [|apply (fits_cons [] [$"x"] _ [$"x"]); [apply fits_eval, uses_name; left; reflexivity|constructor]].
  eapply (fits_loop _ _ _ _ _ _ [$"y"]).
  - split; [reflexivity|]. intros e e' A. split; [reflexivity|exact A].
  - intros x X Y. cbn in X, Y. destruct X as [<-|[]]. destruct Y as [H|[]]. discriminate H.
  - intros e b. cbn [each_ fst map In]. intros [<-|[<-|[]]]; apply binds_name.
  - eapply fits_cons; [apply fits_eval, uses_name; left; reflexivity|constructor].
  - econstructor; [|eapply fits_cons; [constructor|constructor]]. cbn. intros [H|[H|[]]]; discriminate H.
Qed.
Example C81_plain : accepted (plain_loop $"x" $"y") /\
  texts_of (quote_scoped own_it (plain_loop $"x" $"y") nowhere) = texts_of (quote (plain_loop $"x" $"y") nowhere).
Proof. split; [vm_compute; discriminate|]. vm_compute. reflexivity. Qed.
(** With [x] for [y]: the loop's [x] is gone after the loop. *)
Example C81_shadowed :
  texts_of (quote_scoped own_it (plain_loop $"x" $"x") nowhere) =
    Some [Literal (Box $"2"); Literal (Static $","); Space; Literal (Box $"3"); Literal (Box $"1")] /\
  texts_of (quote (plain_loop $"x" $"x") nowhere) =
    Some [Literal (Box $"2"); Literal (Static $","); Space; Literal (Box $"3"); Literal (Box $"3")].
Proof. split; vm_compute; reflexivity. Qed.
(** What the body of a loop binds is in scope in the separator,
    [$(for y in [2, 3] join ($z) => $(let z = 7)$y)], *)
Example C81_separator :
  texts_of (quote_scoped own_it [QLoop (word 1 0 $"$(for y in [2, 3] join ($z) => $(let z = 7)$y)") (each_ $"y" [2; 3]%Z)
    (Some (mk_cursor (mk_pos 1 23) (mk_pos 1 27), [name_ 1 24 $"z"])) [let_ 1 31 $"$(let z = 7)" $"z" 7; name_ 1 43 $"y"]] nowhere) =
    Some [Literal (Box $"2"); Literal (Box $"7"); Literal (Box $"3")].
Proof. vm_compute. reflexivity. Qed.
(** and what an interpolation of a string binds after the string:
    [$[str]($($(let z = 7)))$z]. *)
Example C81_string :
  option_map (fun l => last l Push) (texts_of (quote_scoped own_it [QString (word 1 0 $"$[str]($($(let z = 7)))") (mk_cursor (mk_pos 1 6) (mk_pos 1 23))
    [PEval (mk_cursor (mk_pos 1 7) (mk_pos 1 22)) [let_ 1 9 $"$(let z = 7)" $"z" 7]]; name_ 1 23 $"z"] nowhere)) =
    Some (Literal (Box $"7")).
Proof. vm_compute. reflexivity. Qed.

(** ** The name of the iterator *)

(** Full statement: in a loop with a separator the names in scope are those around
    the loop and those bound in it.  False: [$(let __it = 1)$(for y in [2, 3] join
    (, ) => $__it)] does not show the name's value, as the code of the loop has a
    variable of the same name. *)
Theorem C81_iterator_refuted : ~ forall (qs : list (quoted_item nat demo_env)) e,
  texts_of (quote_scoped own_it qs e) = option_map (fun _ => items (from_iter (fst (quote_mean_scoped (fun n => n) qs e)))) (quote_code qs).
Proof.
  intros H. specialize (H [let_ 1 0 $"$(let __it = 1)" $"__it" 1;
   QLoop (word 1 15 $"$(for y in [2, 3] join (, ) => $__it)") (each_ $"y" [2; 3]%Z)
     (Some (mk_cursor (mk_pos 1 38) (mk_pos 1 42), [tok 1 39 $","])) [name_ 1 46 $"__it"]] nowhere). vm_compute in H. discriminate H.
Qed.
Print Assumptions C81_iterator_refuted.
(** Quotes that do not bind that name are not affected. *)
Example C81_other_names :
  texts_of (quote_scoped own_it (plain_loop $"x" $"y") nowhere) =
    option_map (fun _ => items (from_iter (fst (quote_mean_scoped (fun n => n) (plain_loop $"x" $"y") nowhere)))) (quote_code (plain_loop $"x" $"y")).
Proof. vm_compute. reflexivity. Qed.
