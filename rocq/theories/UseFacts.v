(** * Lemmas: reading Rust's use declarations, and files. *)
From Verif Require Import Str StrFacts SpecStr Tokens SpecTokens Values Fmt SpecFmt Macro SpecMacro SpecWords Parse SpecParse
  SpecFile SpecLex SpecReread RereadFacts LangRust SpecRust SpecProgram ProgramFacts.

(** ** Names and punctuation *)
Definition stops (r : str) : Prop := next_satisfies (fun c => name_char c || N.eqb c 34 || N.eqb c 39 || N.eqb c 35) r = false.
Lemma over_ident s r : rust_ident s -> stops r -> reads_over rg s r [WName s].
Proof.
  intros I S. destruct s as [|c s]; [contradiction|]. destruct I as [F C].
  rewrite <- (app_nil_r (c :: s)) at 1. apply over_token; [discriminate| |constructor]. cbn [app].
  assert (TW : take_while name_char (c :: s ++ r) = (c :: s, r)).
  { change (c :: s ++ r) with ((c :: s) ++ r). apply take_join.
    - cbn [forallb]. unfold name_char at 1. rewrite F. exact C.
    - unfold stops in S. destruct r as [|d r]; [reflexivity|]. cbn [next_satisfies] in *. apply orb_false_iff in S as [S _]. apply orb_false_iff in S as [S _].
      apply orb_false_iff in S as [S _]. exact S. }
  assert (OD : odd_name (c :: s) r = false).
  { unfold odd_name. apply andb_false_iff. right. unfold stops in S. destruct r as [|d r]; [reflexivity|]. cbn [next_satisfies] in *.
    destruct (N.eqb d 34), (N.eqb d 39), (N.eqb d 35), (name_char d); try discriminate S; reflexivity. }
  unfold read_token. destruct (N.eqb_spec c 34) as [->|_]; [discriminate F|]. destruct (N.eqb_spec c 39) as [->|_]; [discriminate F|].
  rewrite F, TW, OD. reflexivity.
Qed.
Lemma over_colons r : next_satisfies punct_char r = false -> reads_over rg $"::" r colons.
Proof.
  intros N. apply (over_token _ [58%N] [58%N]); [discriminate|reflexivity|]. apply (over_token _ [58%N] []); [discriminate| |constructor].
  cbn. cbn in N. rewrite N. reflexivity.
Qed.
Lemma over_semi r : next_satisfies punct_char r = false -> reads_over rg $";" r [WPunct 59 false].
Proof. intros N. apply (over_token _ [59%N] []); [discriminate| |constructor]. cbn. cbn in N. rewrite N. reflexivity. Qed.
Lemma over_comma r : reads_over rg $", " r [WPunct 44 false].
Proof. apply (over_token _ [44%N] [32%N]); [discriminate|reflexivity|]. constructor; [reflexivity|constructor]. Qed.
Lemma over_open r : reads_over rg $"{" r [WOpen Brace].
Proof. apply (over_token _ [123%N] []); [discriminate|reflexivity|constructor]. Qed.
Lemma over_close r : reads_over rg $"}" r [WClose Brace].
Proof. apply (over_token _ [125%N] []); [discriminate|reflexivity|constructor]. Qed.
Lemma over_space r : reads_over rg $" " r [].
Proof. constructor; [reflexivity|constructor]. Qed.
Lemma ident_front s r : rust_ident s -> next_satisfies punct_char (s ++ r) = false.
Proof.
  destruct s as [|c s]; [contradiction|]. intros [F _]. cbn [app next_satisfies]. unfold name_first, in_range in F.
  unfold punct_char. destruct (existsb (N.eqb c) _) eqn:X; [|reflexivity]. apply existsb_exists in X as (d & D & E). apply N.eqb_eq in E. subst d.
  exfalso. cbn in D. repeat (destruct D as [<-|D]; [discriminate F|]). exact D.
Qed.

(** ** Paths *)
Lemma over_path segs r : segs <> [] -> Forall rust_ident segs -> stops r -> reads_over rg (join $"::" segs) r (path_tokens segs).
Proof.
  destruct segs as [|a segs]; [congruence|]. intros _ F S. revert a F. induction segs as [|b segs IH]; intros a F; inversion F as [|? ? I F']; subst.
  - cbn [join path_tokens flat_map]. apply over_ident; auto.
  - change (join $"::" (a :: b :: segs)) with (a ++ $"::" ++ join $"::" (b :: segs)).
    change (path_tokens (a :: b :: segs)) with ([WName a] ++ colons ++ path_tokens (b :: segs)).
    apply over_app; [apply over_ident; [exact I|reflexivity]|]. apply over_app; [|apply IH; auto]. apply over_colons.
    inversion F' as [|? ? I' _]; subst. destruct segs as [|d segs]; [apply ident_front; exact I'|].
    change (join $"::" (b :: d :: segs)) with (b ++ $"::" ++ join $"::" (d :: segs)). rewrite <- app_assoc. apply ident_front. exact I'.
Qed.

(** ** Use declarations *)
Definition alias_ok (a : option item_str) : Prop := match a with Some a => rust_ident (content a) | None => True end.
Definition leaf_ok (l : rust_leaf) : Prop := match l with LSelf a => alias_ok a | LName n a => rust_ident (content n) /\ alias_ok a end.
Lemma over_as a r : alias_ok a -> stops r -> reads_over rg (rust_as a) r (as_tokens a).
Proof.
  destruct a as [a|]; cbn [rust_as as_tokens]; intros I S; [|constructor].
  change ($" as " ++ content a) with ($" " ++ $"as" ++ $" " ++ content a). change [WName $"as"; WName (content a)] with ([] ++ [WName $"as"] ++ [] ++ [WName (content a)]).
  apply over_app; [apply over_space|]. apply over_app; [apply over_ident; [split|]; reflexivity|]. apply over_app; [apply over_space|]. apply over_ident; auto.
Qed.
Lemma as_stops a r : stops r -> stops (rust_as a ++ r).
Proof. destruct a; [reflexivity|auto]. Qed.
Lemma over_leaf l r : leaf_ok l -> stops r -> reads_over rg (rust_leaf_text l) r (leaf_tokens l).
Proof.
  destruct l as [a|n a]; cbn [leaf_ok rust_leaf_text leaf_tokens]; intros I S.
  - change (WName $"self" :: as_tokens a) with ([WName $"self"] ++ as_tokens a). apply over_app; [|apply over_as; auto].
    apply over_ident; [split; reflexivity|]. apply as_stops. exact S.
  - destruct I as [I1 I2]. change (WName (content n) :: as_tokens a) with ([WName (content n)] ++ as_tokens a). apply over_app; [|apply over_as; auto].
    apply over_ident; [exact I1|]. apply as_stops. exact S.
Qed.
Lemma over_leaves l ls r : leaf_ok l -> Forall leaf_ok ls -> stops r ->
  reads_over rg (join $", " (map rust_leaf_text (l :: ls))) r (leaf_tokens l ++ flat_map (fun l => WPunct 44 false :: leaf_tokens l) ls).
Proof.
  revert l. induction ls as [|m ls IH]; intros l I F S.
  - cbn [map join flat_map]. rewrite app_nil_r. apply over_leaf; auto.
  - inversion F; subst. change (join $", " (map rust_leaf_text (l :: m :: ls))) with (rust_leaf_text l ++ $", " ++ join $", " (map rust_leaf_text (m :: ls))).
    cbn [flat_map]. apply over_app; [apply over_leaf; [exact I|reflexivity]|].
    change (WPunct 44 false :: leaf_tokens m) with ([WPunct 44 false] ++ leaf_tokens m). rewrite <- app_assoc. apply over_app; [apply over_comma|]. apply IH; auto.
Qed.
Lemma leaf_front l r : leaf_ok l -> next_satisfies punct_char (rust_leaf_text l ++ r) = false.
Proof. destruct l as [a|n a]; cbn [leaf_ok rust_leaf_text]; intros I; [reflexivity|]. rewrite <- app_assoc. apply ident_front. apply I. Qed.

Definition line_ok (u : item_str * list rust_leaf) : Prop := (exists segs, rust_path (content (fst u)) segs) /\ Forall leaf_ok (snd u).
Lemma over_line u r : line_ok u -> ends r -> exists ks, use_tokens u ks /\ reads_over rg (rust_use_line u) r ks.
Proof.
  intros [(segs & NE & FI & PE) F] EN. destruct u as [m leaves]. cbn [fst snd] in *.
  assert (NP : next_satisfies punct_char r = false).
  { destruct r as [|c r]; [reflexivity|]. cbn in EN |- *. apply white_cases in EN as [->|[->|[->| ->]]]; reflexivity. }
  eexists. split; [exists segs; split; [split; [exact NE|split; [exact FI|exact PE]]|reflexivity]|]. cbn [snd]. unfold rust_use_line. rewrite PE. clear PE.
  change ($"use " ++ ?x) with ($"use" ++ $" " ++ x).
  match goal with |- reads_over _ _ _ (WName $"use" :: ?k) => change (WName $"use" :: k) with ([WName $"use"] ++ [] ++ k) end.
  apply over_app; [apply over_ident; [split|]; reflexivity|]. apply over_app; [apply over_space|].
  assert (G : forall x K, stops (x ++ $";" ++ r) -> reads_over rg x ($";" ++ r) K ->
    reads_over rg (join $"::" segs ++ x ++ $";") r (path_tokens segs ++ K ++ [WPunct 59 false])).
  { intros x K S H. apply over_app; [apply over_path; auto; rewrite <- app_assoc; exact S|]. apply over_app; [exact H|apply over_semi; exact NP]. }
  assert (B : forall x K, reads_over rg x ($"}" ++ $";" ++ r) K -> reads_over rg ($"::{" ++ x ++ $"}") ($";" ++ r) (colons ++ WOpen Brace :: K ++ [WClose Brace])).
  { intros x K H. change ($"::{" ++ x ++ $"}") with ($"::" ++ $"{" ++ x ++ $"}"). apply over_app; [apply over_colons; reflexivity|].
    match goal with |- reads_over _ _ _ (WOpen Brace :: ?k) => change (WOpen Brace :: k) with ([WOpen Brace] ++ k) end.
    apply over_app; [apply over_open|]. apply over_app; [exact H|apply over_close]. }
  destruct leaves as [|l [|l' ls]].
  - apply G; [reflexivity|]. apply (B [] []). constructor.
  - inversion F as [|? ? I _]; subst. destruct l as [a|n a].
    + apply G; [apply as_stops; reflexivity|]. apply over_as; [exact I|reflexivity].
    + apply G; [reflexivity|]. change ($"::" ++ content n ++ rust_as a) with ($"::" ++ rust_leaf_text (LName n a)).
      apply over_app; [|apply over_leaf; [exact I|reflexivity]]. apply over_colons. apply leaf_front. exact I.
  - inversion F as [|? ? I F']; subst. destruct l as [a|n a]; (apply G; [reflexivity|]); rewrite (app_assoc (leaf_tokens _)); apply B; apply over_leaves; try assumption; reflexivity.
Qed.

(** ** Files *)
Lemma consists_tail_in g : (forall c n n', g_stop g c n = g_stop g c n') -> forall s L b, consists g s L -> all_white b -> consists g (s ++ b) L.
Proof.
  intros ST s L b C W. induction C as [|c s l WC C IH|k w r l D RT C IH].
  - apply consists_blank. exact W.
  - cbn. constructor; auto.
  - rewrite <- app_assoc. constructor; [exact D| |exact IH]. apply (token_local_in g ST _ _ r); [exact RT|destruct w; [contradiction|discriminate]|].
    rewrite <- (app_nil_r r) at 1. apply alike_app. constructor; [exact I|]. destruct W; [exact I|assumption].
Qed.
Definition consists_tail := consists_tail_in rg (fun _ _ _ => eq_refl).
Lemma alike_ends r r' : ends r -> ends r' -> alike r r'.
Proof. intros; constructor; auto. Qed.
Lemma ends_app b r : all_white b -> b <> [] -> ends (b ++ r).
Proof. intros W N. destruct W; [congruence|assumption]. Qed.
Lemma stack_consists nl mods : all_white nl -> nl <> [] -> Forall line_ok mods -> forall rest L, ends rest -> consists rg rest L ->
  exists kss L', Forall2 use_tokens mods kss /\ consists rg (stack nl (map rust_use_line mods) ++ rest) L' /\ map fst L' = concat kss ++ map fst L.
Proof.
  intros W N. induction mods as [|u mods IH]; intros F rest L EN C.
  - exists [], L. split; [constructor|]. split; [exact C|reflexivity].
  - inversion F as [|? ? I F']; subst. destruct (IH F' rest L EN C) as (kss & L' & U & C' & M).
    assert (X : exists rest' , stack nl (map rust_use_line (u :: mods)) ++ rest = rust_use_line u ++ rest' /\ ends rest' /\ consists rg rest' L').
    { destruct mods as [|v mods].
      - exists rest. split; [reflexivity|]. split; [exact EN|exact C'].
      - exists (nl ++ stack nl (map rust_use_line (v :: mods)) ++ rest). split; [|split; [apply ends_app; assumption|apply consists_prefix; assumption]].
        change (stack nl (map rust_use_line (u :: v :: mods))) with (rust_use_line u ++ nl ++ stack nl (map rust_use_line (v :: mods))). rewrite <- !app_assoc. reflexivity. }
    destruct X as (rest' & -> & EN' & C2). destruct (over_line u rest' I EN') as (ks & UK & OV).
    destruct (over_consists _ _ _ OV rest' L' (alike_ends _ _ EN' EN') C2) as (L2 & C3 & M2).
    exists (ks :: kss), L2. split; [constructor; auto|]. split; [exact C3|]. rewrite M2, M. cbn. rewrite app_assoc. reflexivity.
Qed.
Lemma file_consists nl mods body L : all_white nl -> nl <> [] -> Forall line_ok mods -> consists rg body L ->
  exists kss L', Forall2 use_tokens mods kss /\ consists rg (file_text nl (map rust_use_line mods) body) L' /\ map fst L' = concat kss ++ map fst L.
Proof.
  intros W N F C. destruct mods as [|u mods].
  - exists [], L. split; [constructor|]. split; [apply consists_tail; assumption|reflexivity].
  - set (us := u :: mods) in *. assert (BE : body = [] \/ body <> []) by (destruct body; [left|right; discriminate]; reflexivity).
    assert (E : file_text nl (map rust_use_line us) body = stack nl (map rust_use_line us) ++ match body with [] => nl | _ => nl ++ nl ++ body ++ nl end).
    { subst us. unfold file_text. cbn [map]. destruct body; rewrite <- ?app_assoc; reflexivity. }
    rewrite E. apply stack_consists; auto.
    + destruct body; [rewrite <- (app_nil_r nl)|]; apply ends_app; assumption.
    + destruct BE as [->|BE].
      * replace L with (@nil (token * str)); [apply consists_blank; exact W|]. symmetry. apply (consists_once _ _ _ (consists_end rg)). exact C.
      * destruct body as [|c body]; [congruence|]. apply consists_prefix; [exact W|]. apply consists_prefix; [exact W|]. apply consists_tail; assumption.
Qed.
Lemma consists_code g s L : consists g s L -> read_code g s = Some (map fst L).
Proof.
  intros C. destruct (consists_read _ _ _ C (length s) (mk_pos 1 0) (le_n _)) as (l & L1 & L2). unfold read_code, read_at. rewrite L1. cbn. rewrite L2. reflexivity.
Qed.
