(** * [break] and [continue] in quoted loops (C79).

    Vocabulary: [Jump.v] (the code of a quote with jumps), [SpecJump.v],
    [SpecExit.v], [SpecMacro.v] (meaning of quotes).  [how e] says how the Rust code
    evaluated last has gone on: [None] if it went on to what follows it. *)
From Verif Require Import Str Tokens SpecTokens TokensRun TokensFacts Values ValuesFacts Fmt SpecFmt
  Macro SpecMacro SpecQuote MacroFacts MacroSem MacroTokens MacroControl PropsMacro PropsControl Exit SpecExit ExitFacts PropsExit
  Jump SpecJump JumpFacts.

(** Where nothing breaks or continues a quote is as in C77. *)
Theorem C79_leaves : forall LI E how back (qs : list (quoted_item LI E)) e t,
  (forall e, how e = None \/ how e = Some Leaves) ->
  quote_in_jump how back qs e t = quote_in_until (fun e => match how e with Some Leaves => true | _ => false end) qs e t.
Proof.
  intros LI E how back qs e t L. unfold quote_in_jump, quote_in_until. destruct (quote_code qs) as [[r code]|]; [|reflexivity].
  cbn [option_map snd]. f_equal. rewrite (all_leave how back code L).
  assert (G : forall e, away how e = match how e with Some Leaves => true | _ => false end) by (intros x; unfold away; destruct (L x) as [-> | ->]; reflexivity).
  (* the two predicates agree *)
  revert e t. set (g2 := fun e => match how e with Some Leaves => true | _ => false end).
  assert (G2 : forall e, away how e = g2 e) by exact G. clearbody g2. clear -G2.
  assert (FU : forall A (f g : A -> E * tokens LI -> E * tokens LI) l, (forall x, In x l -> forall st, f x st = g x st) ->
     forall st, fold_until (away how) f l st = fold_until g2 g l st).
  { intros A f g l. induction l as [|x l IH]; intros H st; [reflexivity|]. rewrite !until_cons, G2, H by (left; reflexivity).
    destruct (g2 (fst (g x st))); [reflexivity|]. apply IH. intros y Y. apply H. right. exact Y. }
  assert (UG : forall (st : E * tokens LI) f g, (forall st, f st = g st) -> unless_gone (away how) st f = unless_gone g2 st g).
  { intros st f g H. unfold unless_gone. rewrite G2, H. reflexivity. }
  assert (ALL : forall (c : stmt LI E) st, exec_until (away how) c st = exec_until g2 c st).
  { set (P := fun c : stmt LI E => forall st, exec_until (away how) c st = exec_until g2 c st).
    assert (FF : forall l, Forall P l -> forall st, fold_until (away how) (exec_until (away how)) l st = fold_until g2 (exec_until g2) l st).
    { intros l F. apply FU. exact (proj1 (Forall_forall _ _) F). }
    apply (stmt_ind' P).
    - intros c. destruct c; auto; intros st; try reflexivity. cbn [exec_until]. destruct (v (fst st)). apply UG. reflexivity.
    - intros it body F st. cbn [exec_until]. destruct (it (fst st)) as [bs e]. apply UG. intros st1. apply FU. intros b _ st2. apply UG. apply FF, F.
    - intros it body join FB FJ st. cbn [exec_until]. destruct (it (fst st)) as [bs e]. apply UG. clear st e. induction bs as [|b bs IH]; intros st; [reflexivity|].
      rewrite !join_until_cons. apply UG. intros st1. rewrite (FF body FB). apply UG. intros st2.
      rewrite (FF join FJ st2). apply UG, IH.
    - intros cond a b FA FB st. cbn [exec_until]. destruct (cond (fst st)) as [yes e]. apply UG. intros st1.
      destruct yes; [apply FF, FA|]. destruct b as [b|]; [|reflexivity]. apply FF, FB.
    - intros sel arms F st. cbn [exec_until]. destruct (sel (fst st)) as [i e]. apply UG. intros st1. rewrite !pick_until.
      destruct (nth_error arms i) as [a|] eqn:N; [|reflexivity]. apply FF. rewrite Forall_forall in F. apply F. eapply nth_error_In; eauto. }
  intros e t. apply FU. intros c _. apply ALL.
Qed.
Print Assumptions C79_leaves.

(** A quote in which nothing jumps is quoted as ever. *)
Theorem C79_stays : forall LI E how back (qs : list (quoted_item LI E)) e t e' t',
  quote_in_until (away how) qs e t = Some (e', t') -> how e' = None ->
  quote_in_jump how back qs e t = Some (e', t') /\ quote_in qs e t = Some (e', t').
Proof.
  intros LI E how back qs e t e' t' H G. apply none_away in G. split; [|eapply C77_stays; eauto].
  unfold quote_in_jump, quote_in_until in *. destruct (quote_code qs) as [[r code]|]; [|discriminate].
  cbn [option_map snd] in *. injection H as H. f_equal. rewrite <- H. apply jumps_stay. rewrite H. exact G.
Qed.
Print Assumptions C79_stays.

(** When an element jumps, the stream has all that precedes it and the separation
    from it, and what the element itself supplies until then; nothing that
    follows. *)
Theorem C79_element : forall LI E how back (qs pre : list (quoted_item LI E)) c x post e t e1 t1 e2 t2,
  all_tokens qs = all_tokens pre ++ (c, LOther x) :: post ->
  accepted qs -> how e = None ->
  quote_in_until (away how) pre e t = Some (e1, t1) -> how e1 = None ->
  quote_in_jump how back [x] e1
    (extend (join_texts [] (match x with QEffect _ _ => settled (up_to pre c e) | _ => up_to pre c e end)) t) = Some (e2, t2) ->
  how e2 <> None ->
  quote_in_jump how back qs e t = Some (e2, t2).
Proof.
  intros LI E how back qs pre c x post e t e1 t1 e2 t2 TK A G QP G1 QX G2. unfold accepted in A. apply none_away in G, G1.
  destruct (quote_code qs) as [[r code]|] eqn:QC; [|congruence].
  destruct (element_at (away how) qs pre c x post r code e t e1 t1 TK QC G QP G1) as (cx & rest & its & -> & -> & cx0 & -> & NX & U).
  unfold quote_in_jump in *. rewrite QC. cbn [option_map snd]. destruct (quote_code [x]) as [[rx cd]|]; [|congruence]. cbn [option_map snd] in QX.
  injection QX as QX. f_equal. rewrite <- app_assoc, jumps_app by exact G.
  rewrite (jumps_stay how back cx0) by (rewrite U; exact G1). rewrite U. cbn [fst]. rewrite G1.
  rewrite jumps_app by exact G1. rewrite QX. cbn [fst]. unfold away at 1. destruct (how e2); [reflexivity|congruence].
Qed.
Print Assumptions C79_element.

(** ** Loops are loops of Rust

    What a round has written stays.  [continue] goes on with the next round,
    [break] with what follows the loop. *)
Theorem C79_loop : forall LI E how back c it (body : list (quoted_item LI E)) e t bs e1,
  accepted [QLoop c it None body] -> it e = (bs, e1) ->
  runs_jump how back [QLoop c it None body] (e, t) =
  in_turn_until (state_away how) [sets (fun _ => e1);
    rounds (state_how how) (state_back back) (map (fun b => in_turn_until (state_away how) (round how back body b)) bs)] (e, t).
Proof.
  intros LI E how back c it body e t bs e1 A IT. unfold accepted in A. rewrite code_loop in A. pose proof (code_loop c it None body) as C. cbn [bind] in *.
  destruct (quote_code body) as [[rb cb]|] eqn:QB; cbn [bind fst snd] in *; [|congruence]. rewrite (runs_jump_code how back _ _ _ C), one_jump.
  cbn [exec_jump fst snd]. rewrite IT. apply (turn_unless how (sets (fun _ => e1)) _ _ (e, t)).
  intros st. rewrite turn_one. apply (for_rounds how back body rb cb bs QB).
Qed.
Print Assumptions C79_loop.
(** The separator belongs to the round it follows: a round that is ended early has
    none. *)
Theorem C79_join : forall LI E how back c it paren js (body : list (quoted_item LI E)) e t bs e1,
  accepted [QLoop c it (Some (paren, js)) body] -> it e = (bs, e1) ->
  runs_jump how back [QLoop c it (Some (paren, js)) body] (e, t) =
  in_turn_until (state_away how) [sets (fun _ => e1);
    rounds (state_how how) (state_back back)
      (map (fun fs => in_turn_until (state_away how) fs) (joined_rounds how back (in_parens (Some paren) js) body bs))] (e, t).
Proof.
  intros LI E how back c it paren js body e t bs e1 A IT. unfold accepted in A. rewrite code_loop in A. pose proof (code_loop c it (Some (paren, js)) body) as C. cbv beta iota in A, C.
  destruct (quote_code (in_parens (Some paren) js)) as [[rj cj]|] eqn:QJ; cbn [bind] in A, C; [|congruence].
  destruct (quote_code body) as [[rb cb]|] eqn:QB; cbn [bind fst snd] in *; [|congruence]. rewrite (runs_jump_code how back _ _ _ C), one_jump.
  cbn [exec_jump fst snd]. rewrite IT. apply (turn_unless how (sets (fun _ => e1)) _ _ (e, t)).
  intros st. rewrite turn_one. apply (join_rounds how back _ body rb cb rj cj bs QB QJ).
Qed.
Print Assumptions C79_join.
(** Conditions and matches do not stop a jump. *)
Theorem C79_if : forall LI E how back c cond (a : list (quoted_item LI E)) b e t yes e1,
  accepted [QIf c cond a b] -> cond e = (yes, e1) ->
  runs_jump how back [QIf c cond a b] (e, t) =
  in_turn_until (state_away how) (sets (fun _ => e1) :: if yes then [runs_jump how back a] else match b with Some b => [runs_jump how back b] | None => [] end) (e, t).
Proof.
  intros LI E how back c cond a b e t yes e1 A IC. unfold accepted in A. rewrite code_if in A. pose proof (code_if c cond a b) as C.
  destruct (quote_code a) as [[ra ca]|] eqn:QA; cbn [bind fst snd] in *; [|congruence].
  destruct b as [b|]; cbn [bind fst snd] in *.
  - destruct (quote_code b) as [[rb cb]|] eqn:QB; cbn [bind fst snd option_map] in *; [|congruence].
    rewrite (runs_jump_code how back _ _ _ C), one_jump. cbn [exec_jump fst snd]. rewrite IC. apply (turn_unless how (sets (fun _ => e1)) _ _ (e, t)).
    intros st. destruct yes; rewrite turn_one; symmetry; [exact (runs_jump_code how back _ _ _ QA st)|exact (runs_jump_code how back _ _ _ QB st)].
  - rewrite (runs_jump_code how back _ _ _ C), one_jump. cbn [exec_jump fst snd]. rewrite IC. apply (turn_unless how (sets (fun _ => e1)) _ _ (e, t)).
    intros st. destruct yes; [rewrite turn_one; symmetry; exact (runs_jump_code how back _ _ _ QA st)|reflexivity].
Qed.
Print Assumptions C79_if.

Lemma turn_two {LI E} (how : E -> option jump) f g (st : E * tokens LI) :
  in_turn_until (state_away how) [f; g] st = if state_away how (f st) then f st else g (f st).
Proof. cbn. destruct (state_away how (f st)); [reflexivity|]. destruct (state_away how (g (f st))); reflexivity. Qed.

(** ** Skipping elements

    A body that starts with [$(let x = match y { Some(x) => x, None => continue })]:
    the loop writes what the loop over the elements that are not skipped writes. *)
Theorem C79_skip : forall LI E how back c it it' (body : list (quoted_item LI E)) cl f post (kbs : list (bool * (E -> E))) e t e1,
  accepted [QLoop c it None body] -> accepted body -> (forall e, how (back e) = None) ->
  all_tokens body = (cl, LOther (QLet cl f)) :: post ->
  Forall (fun kb => fst kb = true \/ skips how back f (map snd kbs) (snd kb)) kbs ->
  it e = (map snd kbs, e1) -> it' e = (map snd (filter fst kbs), e1) ->
  snd (runs_jump how back [QLoop c it None body] (e, t)) = snd (runs_jump how back [QLoop c it' None body] (e, t)).
Proof.
  intros LI E how back c it it' body cl f post kbs e t e1 A AB HB TK F IT IT'.
  assert (A' : accepted [QLoop c it' None body]).
  { unfold accepted in *. rewrite code_loop in *. cbn [bind] in *. destruct (quote_code body) as [[rb cb]|]; cbn [bind] in *; congruence. }
  rewrite (C79_loop _ _ how back c it body e t _ _ A IT), (C79_loop _ _ how back c it' body e t _ _ A' IT').
  rewrite !turn_two. change (sets (fun _ : E => e1) (e, t)) with (e1, t). unfold state_away at 1 3. cbn [fst].
  destruct (away how e1) eqn:G1; [reflexivity|]. apply away_none in G1. clear -F TK HB AB G1.
  assert (K : forall (all : list (E -> E)) e' e t, (forall b, In b (map snd kbs) -> In b all) -> (forall b', In b' (map snd kbs) -> b' e' = b' e) -> how e' = None -> how e = None ->
              Forall (fun kb => fst kb = true \/ skips how back f all (snd kb)) kbs ->
              snd (rounds (state_how how) (state_back back) (map (fun b => in_turn_until (state_away how) (round how back body b)) (map snd kbs)) (e', t)) =
              snd (rounds (state_how how) (state_back back) (map (fun b => in_turn_until (state_away how) (round how back body b)) (map snd (filter fst kbs))) (e, t))).
  { clear -TK HB AB. induction kbs as [|[k b] kbs IH]; intros all e' e t IN NX H1 H2 F; [reflexivity|].
    inversion F as [|? ? K F']; subst. cbn [map filter fst snd] in *.
    assert (IN' : forall b0, In b0 (map snd kbs) -> In b0 all) by (intros; apply IN; right; assumption).
    destruct k.
    - cbn [map snd]. rewrite !around_cons.
      replace (in_turn_until (state_away how) (round how back body b) (e', t)) with (in_turn_until (state_away how) (round how back body b) (e, t))
        by (unfold round; rewrite !turn_two; unfold sets; cbn [fst snd]; rewrite NX by (left; reflexivity); reflexivity).
      unfold arrive. set (st1 := in_turn_until _ _ _). destruct (how (fst st1)) as [[| |]|] eqn:HW; try reflexivity.
      + apply (IH all); auto.
      + rewrite (surjective_pairing st1). apply (IH all); auto.
    - destruct K as [K|K]; [discriminate|]. destruct (K e' H1) as (K1 & K2 & K3). rewrite around_cons.
      assert (R : in_turn_until (state_away how) (round how back body b) (e', t) = (f (b e'), t)).
      { unfold round. rewrite turn_two. unfold sets, state_away. cbn [fst snd]. rewrite (none_away how _ K1).
        apply (skip_body how back body cl f post TK AB (b e') t K1). unfold away. rewrite K2. reflexivity. }
      rewrite R. unfold arrive. cbn [fst snd]. rewrite K2. apply (IH all); auto. intros b' B. rewrite K3 by auto. apply NX. right. exact B. }
  apply (K (map snd kbs)); auto.
Qed.
Print Assumptions C79_skip.

(** With a separator too, provided that the last element is not skipped. *)
Theorem C79_join_skip_partial : forall LI E how back c it it' paren js (body : list (quoted_item LI E)) cl f post (kbs : list (bool * (E -> E))) last e t e1,
  accepted [QLoop c it (Some (paren, js)) body] -> accepted body -> (forall e, how (back e) = None) ->
  all_tokens body = (cl, LOther (QLet cl f)) :: post ->
  Forall (fun kb => fst kb = true \/ skips how back f (map snd kbs ++ [last]) (snd kb)) kbs ->
  it e = (map snd kbs ++ [last], e1) -> it' e = (map snd (filter fst kbs) ++ [last], e1) ->
  runs_jump how back [QLoop c it (Some (paren, js)) body] (e, t) = runs_jump how back [QLoop c it' (Some (paren, js)) body] (e, t).
Proof.
  intros LI E how back c it it' paren js body cl f post kbs last e t e1 A AB HB TK F IT IT'.
  assert (A' : accepted [QLoop c it' (Some (paren, js)) body]).
  { unfold accepted in *. rewrite code_loop in *. destruct (quote_code (in_parens (Some paren) js)) as [[rj cj]|]; cbn [bind] in *; [|congruence].
    destruct (quote_code body) as [[rb cb]|]; cbn [bind] in *; congruence. }
  rewrite (C79_join _ _ how back c it paren js body e t _ _ A IT), (C79_join _ _ how back c it' paren js body e t _ _ A' IT').
  rewrite !turn_two. change (sets (fun _ : E => e1) (e, t)) with (e1, t). unfold state_away at 1 3. cbn [fst].
  destruct (away how e1) eqn:G1; [reflexivity|]. apply away_none in G1. clear -F TK HB AB G1.
  set (jn := in_parens (Some paren) js).
  assert (SAME : forall b rest (e' e : E) t, b e' = b e -> in_turn_until (state_away how) (round how back body b ++ rest) (e', t) = in_turn_until (state_away how) (round how back body b ++ rest) (e, t)).
  { intros b rest e' e t0 H. unfold round. cbn [app in_turn_until]. unfold sets. cbn [fst snd]. rewrite H. reflexivity. }
  assert (K : forall (all : list (E -> E)) e' e t, (forall b, In b (map snd kbs ++ [last]) -> In b all) -> (forall b', In b' (map snd kbs ++ [last]) -> b' e' = b' e) -> how e' = None -> how e = None ->
              Forall (fun kb => fst kb = true \/ skips how back f all (snd kb)) kbs ->
              rounds (state_how how) (state_back back) (map (fun fs => in_turn_until (state_away how) fs) (joined_rounds how back jn body (map snd kbs ++ [last]))) (e', t) =
              rounds (state_how how) (state_back back) (map (fun fs => in_turn_until (state_away how) fs) (joined_rounds how back jn body (map snd (filter fst kbs) ++ [last]))) (e, t)).
  { clear -TK HB AB SAME. induction kbs as [|[k b] kbs IH]; intros all e' e t IN NX H1 H2 F.
    - cbn [map filter app]. rewrite joined_cons. cbn [map]. rewrite !around_cons, (SAME last _ e' e t) by (apply NX; left; reflexivity). reflexivity.
    - inversion F as [|? ? K F']; subst. cbn [map filter fst snd app] in *. rewrite joined_cons.
      assert (IN' : forall b0, In b0 (map snd kbs ++ [last]) -> In b0 all) by (intros; apply IN; right; assumption).
      destruct k.
      + cbn [map snd app]. rewrite joined_cons. cbn [map]. rewrite !around_cons, (SAME b _ e' e t) by (apply NX; left; reflexivity). unfold arrive.
        replace (match map snd kbs ++ [last] with [] => [] | _ => [runs_jump how back jn] end) with [runs_jump how back jn] by (destruct kbs; reflexivity).
        replace (match map snd (filter fst kbs) ++ [last] with [] => [] | _ => [runs_jump how back jn] end) with [runs_jump how back jn] by (destruct (filter fst kbs); reflexivity).
        set (st1 := in_turn_until _ _ _). destruct (how (fst st1)) as [[| |]|] eqn:HW; try reflexivity.
        * apply (IH all); auto.
        * rewrite (surjective_pairing st1). apply (IH all); auto.
      + destruct K as [K|K]; [discriminate|]. destruct (K e' H1) as (K1 & K2 & K3). cbn [map]. rewrite around_cons.
        match goal with |- arrive _ _ (in_turn_until _ (_ ++ ?x) _) _ = _ => set (sep := x) end.
        assert (R : in_turn_until (state_away how) (round how back body b ++ sep) (e', t) = (f (b e'), t)).
        { unfold round. cbn [in_turn_until app]. unfold sets at 1 2 3. unfold state_away at 1. cbn [fst snd].
          rewrite (none_away how _ K1). unfold sets. cbn [fst snd].
          rewrite (skip_body how back body cl f post TK AB (b e') t K1) by (unfold away; rewrite K2; reflexivity).
          unfold state_away. cbn [fst]. unfold away. rewrite K2. reflexivity. }
        rewrite R. unfold arrive. cbn [fst snd]. rewrite K2. apply (IH all); auto. intros b' B. rewrite K3 by auto. apply NX. right. exact B. }
  apply (K (map snd kbs ++ [last])); auto.
Qed.
Print Assumptions C79_join_skip_partial.

(** If the last element is skipped, the separator is written after each of the
    others, also after the last of them. *)
Theorem C79_join_skip_last : forall LI E how back c it paren js (body : list (quoted_item LI E)) cl f post (kbs : list (bool * (E -> E))) last e t e1,
  accepted [QLoop c it (Some (paren, js)) body] -> accepted body -> (forall e, how (back e) = None) -> how e1 = None ->
  all_tokens body = (cl, LOther (QLet cl f)) :: post ->
  Forall (fun kb => fst kb = true \/ skips how back f (map snd kbs ++ [last]) (snd kb)) kbs ->
  skips how back f (map snd kbs ++ [last]) last ->
  it e = (map snd kbs ++ [last], e1) ->
  snd (runs_jump how back [QLoop c it (Some (paren, js)) body] (e, t)) =
  snd (rounds (state_how how) (state_back back)
    (map (fun b => in_turn_until (state_away how) (round how back body b ++ [runs_jump how back (in_parens (Some paren) js)]))
       (map snd (filter fst kbs))) (e1, t)).
Proof.
  intros LI E how back c it paren js body cl f post kbs last e t e1 A AB HB G1 TK F FL IT.
  rewrite (C79_join _ _ how back c it paren js body e t _ _ A IT).
  rewrite !turn_two. change (sets (fun _ : E => e1) (e, t)) with (e1, t). unfold state_away at 1. cbn [fst].
  rewrite (none_away how e1 G1). clear -F FL TK HB AB G1.
  set (jn := in_parens (Some paren) js).
  assert (SAME : forall b rest (e' e : E) t, b e' = b e -> in_turn_until (state_away how) (round how back body b ++ rest) (e', t) = in_turn_until (state_away how) (round how back body b ++ rest) (e, t)).
  { intros b rest e' e t0 H. unfold round. cbn [app in_turn_until]. unfold sets. cbn [fst snd]. rewrite H. reflexivity. }
  assert (SK : forall all b e' t sep, skips how back f all b -> how e' = None -> in_turn_until (state_away how) (round how back body b ++ sep) (e', t) = (f (b e'), t)).
  { intros all b e' t0 sep K H1. destruct (K e' H1) as (K1 & K2 & K3). unfold round. cbn [in_turn_until app]. unfold sets at 1 2 3. unfold state_away at 1. cbn [fst snd].
    rewrite (none_away how _ K1). unfold sets. cbn [fst snd].
    rewrite (skip_body how back body cl f post TK AB (b e') t0 K1) by (unfold away; rewrite K2; reflexivity).
    unfold state_away. cbn [fst]. unfold away. rewrite K2. reflexivity. }
  assert (K : forall (all : list (E -> E)) e' e t, (forall b, In b (map snd kbs ++ [last]) -> In b all) -> (forall b', In b' (map snd kbs ++ [last]) -> b' e' = b' e) -> how e' = None -> how e = None ->
              Forall (fun kb => fst kb = true \/ skips how back f all (snd kb)) kbs -> skips how back f all last ->
              snd (rounds (state_how how) (state_back back) (map (fun fs => in_turn_until (state_away how) fs) (joined_rounds how back jn body (map snd kbs ++ [last]))) (e', t)) =
              snd (rounds (state_how how) (state_back back) (map (fun b => in_turn_until (state_away how) (round how back body b ++ [runs_jump how back jn])) (map snd (filter fst kbs))) (e, t))).
  { clear -HB SAME SK. induction kbs as [|[k b] kbs IH]; intros all e' e t IN NX H1 H2 F FL.
    - cbn [map filter app]. rewrite joined_cons. cbn [map]. rewrite !around_cons, (SK all last e' t _ FL H1).
      destruct (FL e' H1) as (K1 & K2 & K3). unfold arrive. cbn [fst snd]. rewrite K2. reflexivity.
    - inversion F as [|? ? K F']; subst. cbn [map filter fst snd app] in *. rewrite joined_cons.
      assert (IN' : forall b0, In b0 (map snd kbs ++ [last]) -> In b0 all) by (intros; apply IN; right; assumption).
      destruct k.
      + cbn [map snd app]. rewrite !around_cons, (SAME b _ e' e t) by (apply NX; left; reflexivity). unfold arrive.
        replace (match map snd kbs ++ [last] with [] => [] | _ => [runs_jump how back jn] end) with [runs_jump how back jn] by (destruct kbs; reflexivity).
        set (st1 := in_turn_until _ _ _). destruct (how (fst st1)) as [[| |]|] eqn:HW; try reflexivity.
        * apply (IH all); auto.
        * rewrite (surjective_pairing st1). apply (IH all); auto.
      + destruct K as [K|K]; [discriminate|]. cbn [map]. rewrite around_cons, (SK all b e' t _ K H1). destruct (K e' H1) as (K1 & K2 & K3).
        unfold arrive. cbn [fst snd]. rewrite K2. apply (IH all); auto. intros b' B. rewrite K3 by auto. apply NX. right. exact B. }
  apply (K (map snd kbs ++ [last])); auto.
Qed.
Print Assumptions C79_join_skip_last.

(** Full statement: whichever elements are skipped.  What is missing is false:
    Finding: if the last element is skipped, the separator that is written after
    the one before it dangles.
    <<
    $(for x in [Some(1), None] join (, ) => $(let x = match x { Some(x) => x, None => continue })$x)
    >> *)
Definition demo_how (e : option jump * nat) : option jump := fst e.
Definition demo_back (e : option jump * nat) : option jump * nat := (None, snd e).
Definition demo_bind (x : nat) (e : option jump * nat) : option jump * nat := (fst e, x).
Definition demo_let (e : option jump * nat) : option jump * nat := if snd e =? 0 then (Some Continues, 0) else e.
Definition demo_round : list (quoted_item unit (option jump * nat)) :=
  [QLet (word 2 0 $"$(let x = match x { Some(x) => x, None => continue })") demo_let; QEval (word 2 53 $"$x") (fun e => (VInt (Z.of_nat (snd e)), e))].
Definition demo_loop (join : option (cursor * list (quoted_item unit (option jump * nat)))) (xs : list nat) : quoted_item unit (option jump * nat) :=
  QLoop (mk_cursor (mk_pos 1 0) (mk_pos 3 1)) (fun e => (map demo_bind xs, e)) join demo_round.
Definition demo_comma : option (cursor * list (quoted_item unit (option jump * nat))) := Some (mk_cursor (mk_pos 1 40) (mk_pos 1 44), [tok 1 41 $","]).
Definition demo_text (qs : list (quoted_item unit (option jump * nat))) : option str :=
  match quote_in_jump demo_how demo_back qs (None, 0) new with Some (_, t) => to_string unit_lang t | None => None end.
Theorem C79_join_skip_refuted :
  demo_text [demo_loop demo_comma [1; 0; 3]] = Some $"1, 3" /\
  demo_text [demo_loop demo_comma [1; 0]] = Some $"1," /\
  demo_text [demo_loop demo_comma [1]] = Some $"1".
Proof. repeat split; vm_compute; reflexivity. Qed.
Print Assumptions C79_join_skip_refuted.

(** The examples meet the hypotheses of the theorems about skipping. *)
Example C79_skip_example : accepted [demo_loop None [1; 0; 3]] /\ accepted [demo_loop demo_comma [1; 0; 3]] /\ accepted demo_round /\
  (forall e, demo_how (demo_back e) = None) /\
  (exists cl post, all_tokens demo_round = (cl, LOther (QLet cl demo_let)) :: post) /\
  (let kbs := [(true, demo_bind 1); (false, demo_bind 0); (true, demo_bind 3)] in
   Forall (fun kb => fst kb = true \/ skips demo_how demo_back demo_let (map snd kbs) (snd kb)) kbs /\
   map snd kbs = map demo_bind [1; 0; 3] /\ map snd (filter fst kbs) = map demo_bind [1; 3]) /\
  demo_text [demo_loop None [1; 0; 3]] = Some $"13".
Proof.
  split; [discriminate|]. split; [discriminate|]. split; [discriminate|]. split; [reflexivity|]. split; [eexists _, _; reflexivity|]. split; [|reflexivity].
  cbv zeta. split; [|split; reflexivity]. constructor; [left; reflexivity|]. constructor; [right|constructor; [left; reflexivity|constructor]].
  intros [j n] H. cbn in H. subst j. split; [reflexivity|]. split; [reflexivity|]. intros b' [<-|[<-|[<-|[]]]]; reflexivity.
Qed.
(** Of [1; 0] the second is skipped. *)
Example C79_skip_last_example : accepted [demo_loop demo_comma [1; 0]] /\ accepted demo_round /\
  Forall (fun kb => fst kb = true \/ skips demo_how demo_back demo_let (map snd [(true, demo_bind 1)] ++ [demo_bind 0]) (snd kb)) [(true, demo_bind 1)] /\
  skips demo_how demo_back demo_let (map snd [(true, demo_bind 1)] ++ [demo_bind 0]) (demo_bind 0).
Proof.
  split; [discriminate|]. split; [discriminate|]. split; [constructor; [left; reflexivity|constructor]|].
  intros [j n] H. cbn in H. subst j. split; [reflexivity|]. split; [reflexivity|]. intros b' [<-|[<-|[]]]; reflexivity.
Qed.
(** Nothing jumps over [1; 2]; over [1; 0; 3] the round of [0] stops at its first
    element. *)
Example C79_stays_example : exists t,
  quote_in_until (away demo_how) [demo_loop demo_comma [1; 2]] (None, 0) new = Some ((None, 2), t) /\ to_string unit_lang t = Some $"1, 2".
Proof. eexists. split; vm_compute; reflexivity. Qed.
Example C79_element_example : let let_ := word 2 0 $"$(let x = match x { Some(x) => x, None => continue })" in
  (exists post, all_tokens demo_round = all_tokens [] ++ (let_, LOther (QLet let_ demo_let)) :: post) /\
  quote_in_until (away demo_how) [] (None, 0) (new : tokens unit) = Some ((None, 0), new) /\
  quote_in_jump demo_how demo_back [QLet let_ demo_let] (None, 0) (new : tokens unit) = Some ((Some Continues, 0), new).
Proof. cbv zeta. split; [eexists; reflexivity|]. split; reflexivity. Qed.

(** Finding: the pattern of a joined loop is that of a [while let].  An element it
    does not match ends the loop without a word, and the separator in front of it
    dangles.  Without a separator the compiler refuses such a pattern.
    <<
    $(for Some(x) in [Some(1), None, Some(3)] join (, ) => $x)
    >> *)
Definition demo_some (x : nat) (e : option jump * nat) : option jump * nat := if x =? 0 then (Some Breaks, snd e) else (fst e, x).
Theorem C79_pattern_refuted :
  demo_text [QLoop (mk_cursor (mk_pos 1 0) (mk_pos 1 60)) (fun e => (map demo_some [1; 0; 3], e))
              (Some (mk_cursor (mk_pos 1 40) (mk_pos 1 44), [tok 1 41 $","])) [QEval (word 1 50 $"$x") (fun e => (VInt (Z.of_nat (snd e)), e))];
             tok 2 0 $"end"] = Some ($"1," ++ [10%N] ++ $"end").
Proof. vm_compute. reflexivity. Qed.
Print Assumptions C79_pattern_refuted.

(** Finding: [continue] from an indented line leaves its indentation in the stream:
    what follows is indented by one level more for each round that was ended so.
    <<
    $(for x in [None, None, Some(3)] =>
        f {
            $(match x { Some(x) => x, None => continue })
        })
    >> *)
Definition demo_deep : list (quoted_item unit (option jump * nat)) :=
  [tok 2 4 $"f"; QGroup (mk_cursor (mk_pos 2 6) (mk_pos 4 5)) Brace
     [QEval (word 3 8 $"$(match x { Some(x) => x, None => continue })") (fun e => (VInt (Z.of_nat (snd e)), demo_let e))]].
Theorem C79_indentation_refuted :
  accepted [QLoop (mk_cursor (mk_pos 1 0) (mk_pos 4 6)) (fun e => (map demo_bind [0; 0; 3], e)) None demo_deep; tok 5 0 $"end"] /\
  demo_text [QLoop (mk_cursor (mk_pos 1 0) (mk_pos 4 6)) (fun e => (map demo_bind [0; 0; 3], e)) None demo_deep; tok 5 0 $"end"] =
  Some ($"f {" ++ [10%N] ++ $"    f {" ++ [10%N] ++ $"        f {" ++ [10%N] ++ $"            3" ++ [10%N] ++ $"        }" ++ [10%N] ++ $"        end").
Proof. split; [discriminate|vm_compute; reflexivity]. Qed.
Print Assumptions C79_indentation_refuted.
