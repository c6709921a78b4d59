(** * Lemmas: without shadowing, scopes make no difference. *)
From Verif Require Import Str StrFacts Tokens SpecTokens TokensRun Values SpecFmt Macro SpecMacro MacroFacts MacroSem Scope SpecScope ScopeSem SpecShadow.

Section Facts.
Context {LI V store : Type}.
Notation names := (str -> option V).
Notation env := (names * store)%type.
Notation quoted := (quoted_item LI env).

Scheme fits_mind := Minimality for fits Sort Prop
  with fits_all_mind := Minimality for fits_all Sort Prop
  with fits_part_mind := Minimality for fits_string_part Sort Prop
  with fits_string_mind := Minimality for fits_string_all Sort Prop
  with fits_join_mind := Minimality for fits_join Sort Prop
  with fits_else_mind := Minimality for fits_else Sort Prop
  with fits_arms_mind := Minimality for fits_arms Sort Prop.
Combined Scheme fits_mutind from fits_mind, fits_all_mind, fits_part_mind, fits_string_mind, fits_join_mind, fits_else_mind, fits_arms_mind.

(** The unscoped run, the scoped run, and where the scoped run started. *)
Definition follows (outer vs : list str) (e1 e2 e0 : env) : Prop :=
  alike vs e1 e2 /\ (forall x, In x outer -> fst e2 x = fst e0 x).

Definition item_rel (outer vs : list str) (x : quoted) (vs' : list str) : Prop := incl vs vs' /\
  forall w K e1 e2, incl outer vs -> alike vs e1 e2 ->
  exists w' K' e1' e2', mean x (mk_mstate w K e1) = mk_mstate w' K' e1' /\
    mean_scoped own_it x (mk_mstate w K e2) = mk_mstate w' K' e2' /\ follows outer vs' e1' e2' e2.
Definition items_rel (outer vs : list str) (qs : list quoted) (vs' : list str) : Prop := incl vs vs' /\
  forall w K e1 e2, incl outer vs -> alike vs e1 e2 ->
  exists w' K' e1' e2', fold_left (fun st x => mean x st) qs (mk_mstate w K e1) = mk_mstate w' K' e1' /\
    fold_left (fun st x => mean_scoped own_it x st) qs (mk_mstate w K e2) = mk_mstate w' K' e2' /\ follows outer vs' e1' e2' e2.
Definition part_rel (outer vs : list str) (x : string_item LI env) (vs' : list str) : Prop := incl vs vs' /\
  forall w K e1 e2, incl outer vs -> alike vs e1 e2 ->
  exists w' K' e1' e2', string_mean x (w, K, e1) = (w', K', e1') /\
    string_mean_scoped own_it x (w, K, e2) = (w', K', e2') /\ follows outer vs' e1' e2' e2.
Definition parts_rel (outer vs : list str) (ps : list (string_item LI env)) (vs' : list str) : Prop := incl vs vs' /\
  forall w K e1 e2, incl outer vs -> alike vs e1 e2 ->
  exists w' K' e1' e2', fold_left (fun st x => string_mean x st) ps (w, K, e1) = (w', K', e1') /\
    fold_left (fun st x => string_mean_scoped own_it x st) ps (w, K, e2) = (w', K', e2') /\ follows outer vs' e1' e2' e2.
(** Two meanings of a body. *)
Definition body_rel (outer vs vs' : list str) (m1 m2 : env -> list (item LI) * env) : Prop :=
  incl vs vs' /\
  forall e1 e2, incl outer vs -> alike vs e1 e2 -> fst (m1 e1) = fst (m2 e2) /\ follows outer vs' (snd (m1 e1)) (snd (m2 e2)) e2.

Lemma alike_incl vs vs' e1 e2 : incl vs vs' -> alike vs' e1 e2 -> @alike V store vs e1 e2.
Proof. intros H [A B]. split; auto. Qed.
Lemma follows_refl outer vs e1 e2 : alike vs e1 e2 -> follows outer vs e1 e2 e2.
Proof. intros A. split; auto. Qed.
(** At the end of a body. *)
Lemma follows_leave vs vs' e1 e2 e0 : incl vs vs' -> follows vs vs' e1 e2 e0 -> alike vs e1 (leave e0 e2).
Proof. intros H [[A B] C]. split; [|exact B]. intros x X. cbn. rewrite A by auto. apply C, X. Qed.
Lemma binds_follows {A} outer vs ns (f : env -> A * env) e1 e2 : binds vs ns f -> apart_from outer ns -> alike vs e1 e2 ->
  fst (f e1) = fst (f e2) /\ follows outer (ns ++ vs) (snd (f e1)) (snd (f e2)) e2.
Proof.
  intros [B1 B2] AP AL. destruct (B2 _ _ AL) as [Q A2]. split; [exact Q|]. split; [exact A2|]. intros x X. apply B1. intros N. exact (AP x N X).
Qed.
Lemma uses_leave {A} vs (f : env -> A * env) e1 e2 : uses vs f -> alike vs e1 e2 ->
  fst (f e1) = fst (f e2) /\ alike vs (snd (f e1)) (leave e2 (snd (f e2))).
Proof.
  intros U AL. destruct (binds_follows vs vs [] f e1 e2 U) as [Q F]; [intros x []|exact AL|]. split; [exact Q|].
  eapply follows_leave; [|exact F]. apply incl_refl.
Qed.
Lemma enter_same c w K (e1 e2 : env) : exists w' K', @enter_chunks LI env c (mk_mstate w K e1) = mk_mstate w' K' e1 /\
  @enter_chunks LI env c (mk_mstate w K e2) = mk_mstate w' K' e2.
Proof. unfold enter_chunks. cbn [m_place m_chunks m_env]. destruct (enter c w) as [[p w']|]; eauto. Qed.

Lemma block_body outer vs span qs vs' : items_rel outer vs qs vs' ->
  body_rel outer vs vs' (block_mean_with mean span qs) (block_mean_with (mean_scoped own_it) span qs).
Proof.
  intros [IN H]. split; [exact IN|]. intros e1 e2 I A. destruct (H (start_of span) [] e1 e2 I A) as (w' & K' & e1' & e2' & Q1 & Q2 & F).
  unfold block_mean_with. rewrite Q1, Q2. destruct span as [c|].
  - destruct (enter_same (mk_cursor (before_close c) (before_close c)) w' K' e1' e2') as (w2 & K2 & -> & ->). auto.
  - auto.
Qed.

Lemma loop_rel vs ns vs' (m1 m2 j1 j2 : env -> list (item LI) * env) bs : apart_from vs ns ->
  (forall b, In b bs -> binds vs ns (only b)) ->
  body_rel vs (ns ++ vs) vs' m1 m2 -> (exists vs2, body_rel vs' vs' vs2 j1 j2) ->
  forall e1 e2, alike vs e1 e2 ->
  fst (loop_mean m1 j1 bs e1) = fst (loop_scoped m2 j2 bs e2) /\
  alike vs (snd (loop_mean m1 j1 bs e1)) (snd (loop_scoped m2 j2 bs e2)) /\
  (forall x, fst (snd (loop_scoped m2 j2 bs e2)) x = fst e2 x).
Proof.
  intros AP B [IM M] [vs2 [IJ J]]. induction bs as [|b bs IH]; intros e1 e2 A; [cbn; auto|].
  assert (B' : forall b, In b bs -> binds vs ns (only b)) by (intros; apply B; right; auto). specialize (IH B').
  destruct (binds_follows vs vs ns (only b) e1 e2 (B b (or_introl eq_refl)) AP A) as [_ [AB FB]]. cbn [only snd] in AB, FB.
  assert (I1 : incl vs (ns ++ vs)) by apply incl_appr, incl_refl.
  destruct (M (b e1) (b e2) I1 AB) as [Q1 [A1 F1]].
  rewrite loop_scoped_cons. cbn [loop_mean]. unfold inside. destruct (m1 (b e1)) as [i1 f1]. destruct (m2 (b e2)) as [i2 f2]. cbn [fst snd] in *. subst i2.
  assert (G : forall s g1 g2, alike vs' g1 g2 -> (forall x, In x vs' -> fst g2 x = fst f2 x) ->
    fst (let '(rest, e) := loop_mean m1 j1 bs g1 in (i1 ++ s ++ rest, e)) =
    fst (let '(rest, e) := loop_scoped m2 j2 bs (fst e2, snd g2) in ((i1 ++ s) ++ rest, e)) /\
    alike vs (snd (let '(rest, e) := loop_mean m1 j1 bs g1 in (i1 ++ s ++ rest, e)))
     (snd (let '(rest, e) := loop_scoped m2 j2 bs (fst e2, snd g2) in ((i1 ++ s) ++ rest, e))) /\
    (forall x, fst (snd (let '(rest, e) := loop_scoped m2 j2 bs (fst e2, snd g2) in ((i1 ++ s) ++ rest, e))) x = fst e2 x)).
  { intros s g1 g2 AG GG. assert (A2 : alike vs g1 (fst e2, snd g2)).
    { destruct AG as [AG1 AG2]. split; [|exact AG2]. intros x X. cbn [fst]. rewrite AG1 by (apply IM, I1, X). rewrite GG by (apply IM, I1, X).
      rewrite F1 by exact X. apply FB, X. }
    destruct (IH _ _ A2) as (Q2 & A3 & N). destruct (loop_mean m1 j1 bs g1) as [r1 h1]. destruct (loop_scoped m2 j2 bs (fst e2, snd g2)) as [r2 h2].
    cbn [fst snd] in *. subst r2. rewrite app_assoc. auto. }
  destruct bs as [|b2 bs].
  - exact (G [] f1 f2 A1 (fun _ _ => eq_refl)).
  - destruct (J f1 f2 (incl_refl _) A1) as [QJ [AJ FJ]]. destruct (j1 f1) as [s1 g1]. destruct (j2 f2) as [s2 g2]. cbn [fst snd] in *. subst s2.
    apply (G s1 g1 (fst f2, snd g2)); [|reflexivity]. eapply alike_incl in AJ; [|exact IJ]. destruct AJ as [AJ1 AJ2]. split; [|exact AJ2].
    intros x X. cbn [fst]. rewrite AJ1 by exact X. apply FJ, X.
Qed.

Theorem unshadowed :
  (forall outer vs (x : quoted) vs', fits outer vs x vs' -> item_rel outer vs x vs') /\
  (forall outer vs qs vs', fits_all outer vs qs vs' -> items_rel outer vs qs vs') /\
  (forall outer vs x vs', fits_string_part outer vs x vs' -> part_rel outer vs x vs') /\
  (forall outer vs ps vs', fits_string_all outer vs ps vs' -> parts_rel outer vs ps vs') /\
  (forall vs (j : option (cursor * list quoted)), fits_join vs j -> (match j with Some _ => ~ In $"__it" vs | None => True end) /\ exists vs2, body_rel vs vs vs2
     (match j with Some (paren, js) => block_mean_with mean (Some paren) js | None => fun e => ([], e) end)
     (match j with Some (paren, js) => block_mean_with (mean_scoped own_it) (Some paren) js | None => fun e => ([], e) end)) /\
  (forall vs (b : option (list quoted)), fits_else vs b -> exists vs2, body_rel vs vs vs2
     (match b with Some qs => block_mean_with mean None qs | None => fun e => ([], e) end)
     (match b with Some qs => block_mean_with (mean_scoped own_it) None qs | None => fun e => ([], e) end)) /\
  (forall outer vs (arms : list (option cursor * list quoted)), fits_arms outer vs arms -> forall i e1 e2, incl outer vs -> alike vs e1 e2 ->
     fst (pick_mean e1 arms i) = fst (pick_scoped own_it e2 arms i) /\ follows outer vs (snd (pick_mean e1 arms i)) (snd (pick_scoped own_it e2 arms i)) e2).
Proof.
  apply fits_mutind.
  1-4: (intros; split; [apply incl_refl|]; intros w K e1 e2 IO A; cbn [mean mean_scoped];
       match goal with |- context [enter_chunks ?c _] => destruct (enter_same c w K e1 e2) as (w' & K' & -> & ->) end; unfold put; cbn [m_place m_chunks m_env];
       do 4 eexists; split; [reflexivity|]; split; [reflexivity|]; apply follows_refl, A).
  - (* group *)
    intros outer vs c d qs vs' _ [IN H]. split; [exact IN|]. intros w K e1 e2 IO A. cbn [mean mean_scoped].
    destruct (enter_same (opener_at c) w K e1 e2) as (w1 & K1 & -> & ->). unfold put at 2 4. cbn [m_place m_chunks m_env].
    destruct (H w1 (K1 ++ [KText (opener d)]) e1 e2 IO A) as (w2 & K2 & f1 & f2 & -> & -> & F).
    destruct (enter_same (closer_at c) w2 K2 f1 f2) as (w3 & K3 & -> & ->). unfold put. cbn [m_place m_chunks m_env]. do 4 eexists. repeat split; try reflexivity; apply F.
  - (* string *)
    intros outer vs c paren ps vs' _ [IN H]. split; [exact IN|]. intros w K e1 e2 IO A. rewrite mean_string, scoped_string. cbv zeta.
    destruct (enter_same c w K e1 e2) as (w1 & K1 & -> & ->). cbn [m_env].
    destruct (H (inner_start paren) [] e1 e2 IO A) as (w2 & K2 & f1 & f2 & -> & -> & F). unfold put_items. cbn [m_place m_chunks m_env fst snd].
    do 4 eexists. repeat split; try reflexivity; apply F.
  - intros outer vs c k. split; [apply incl_refl|]; intros w K e1 e2 IO A; cbn [mean mean_scoped].
    destruct (enter_same c w K e1 e2) as (w' & K' & -> & ->). unfold put; cbn [m_place m_chunks m_env].
    do 4 eexists; split; [reflexivity|]; split; [reflexivity|]; apply follows_refl, A.
  - (* eval *)
    intros outer vs c v U. split; [apply incl_refl|]. intros w K e1 e2 IO A. cbn [mean mean_scoped].
    destruct (enter_same c w K e1 e2) as (w' & K' & -> & ->). cbn [m_env]. unfold inside. destruct (uses_leave vs v e1 e2 U A) as [Q L]. unfold leave in L.
    destruct (v e1) as [a f1]. destruct (v e2) as [b f2]. cbn [fst snd] in *. subst b. unfold put_items. cbn [m_place m_chunks m_env fst snd].
    do 4 eexists; split; [reflexivity|]; split; [reflexivity|]. split; [exact L|]. reflexivity.
  - intros outer vs c v U. split; [apply incl_refl|]. intros w K e1 e2 IO A. cbn [mean mean_scoped].
    destruct (enter_same c w K e1 e2) as (w' & K' & -> & ->). cbn [m_env]. unfold inside. destruct (uses_leave vs v e1 e2 U A) as [Q L]. unfold leave in L.
    destruct (v e1) as [a f1]. destruct (v e2) as [b f2]. cbn [fst snd] in *. subst b. unfold put_items. cbn [m_place m_chunks m_env fst snd].
    do 4 eexists; split; [reflexivity|]; split; [reflexivity|]. split; [exact L|]. reflexivity.
  - (* effect *)
    intros outer vs c f U. split; [apply incl_refl|]. intros w K e1 e2 IO A. cbn [mean mean_scoped].
    destruct (enter_same c w K e1 e2) as (w' & K' & -> & ->). cbn [m_env m_place m_chunks inside snd]. destruct (uses_leave vs _ e1 e2 U A) as [_ L]. unfold leave in L. cbn [only snd] in L.
    do 4 eexists; split; [reflexivity|]; split; [reflexivity|]. split; [exact L|]. reflexivity.
  - (* loop *)
    intros outer vs c it join body ns vs' U AP B _ HB _ HJ. split; [apply incl_refl|]. intros w K e1 e2 IO A. cbn [mean mean_scoped].
    destruct (enter_same c w K e1 e2) as (w' & K' & -> & ->). cbn [m_env]. unfold inside at 1. destruct (uses_leave vs it e1 e2 U A) as [Q L]. unfold leave in L.
    specialize (B e1). destruct (it e1) as [bs f1]. destruct (it e2) as [bs2 f2]. cbn [fst snd] in *. subst bs2.
    destruct HJ as [NI HJ]. destruct join as [[paren js]|].
    + assert (L' : alike vs f1 (own_it (fst e2), snd f2)).
      { destruct L as [L1 L2]. split; [|exact L2]. intros x X. rewrite L1 by exact X. cbn [fst]. unfold own_it. destruct (str_eqb x $"__it") eqn:Q; [|reflexivity].
        apply str_eqb_eq in Q. subst x. exfalso. apply NI. apply (proj1 HB), in_or_app. right. exact X. }
      destruct (loop_rel vs ns vs' _ _ _ _ bs AP B (block_body _ _ None _ _ HB) HJ f1 (own_it (fst e2), snd f2) L') as (Q2 & A2 & N).
      unfold put_items, inside. cbn [m_place m_chunks m_env fst snd]. rewrite Q2. destruct (loop_scoped _ _ bs _) as [r g]. cbn [fst snd] in *.
      do 4 eexists; split; [reflexivity|]; split; [reflexivity|]. split; [|reflexivity]. destruct A2 as [A2 A3]. split; [|exact A3].
      intros x X. rewrite A2, N by exact X. destruct L as [L _], L' as [L' _]. specialize (L x X). specialize (L' x X). cbn [fst] in *. congruence.
    + destruct (loop_rel vs ns vs' _ _ _ _ bs AP B (block_body _ _ None _ _ HB) HJ f1 (fst e2, snd f2) L) as (Q2 & A2 & N).
      unfold put_items. cbn [m_place m_chunks m_env]. rewrite Q2. do 4 eexists; split; [reflexivity|]; split; [reflexivity|]. split; [exact A2|]. intros x _. rewrite N. reflexivity.
  - (* if *)
    intros outer vs c cond a b ns vs' B AP _ HA _ [vs2 [IB HB]]. split; [apply incl_refl|]. intros w K e1 e2 IO A. cbn [mean mean_scoped].
    destruct (enter_same c w K e1 e2) as (w' & K' & -> & ->). cbn [m_env]. unfold inside.
    destruct (binds_follows vs vs ns cond e1 e2 B AP A) as [Q F]. destruct (cond e1) as [y f1]. destruct (cond e2) as [y2 f2]. cbn [fst snd] in *. subst y2.
    assert (I1 : incl vs (ns ++ vs)) by apply incl_appr, incl_refl.
    unfold put_items. cbn [m_place m_chunks m_env]. destruct y.
    + destruct (block_body _ _ None _ _ HA) as [IA HA']. destruct (HA' f1 f2 I1 (proj1 F)) as [Q2 [A2 F2]].
      destruct (block_mean_with mean None a f1) as [i1 g1]. destruct (block_mean_with (mean_scoped own_it) None a f2) as [i2 g2]. cbn [fst snd] in *. subst i2.
      do 4 eexists; split; [reflexivity|]; split; [reflexivity|]. split; [|reflexivity].
      apply (follows_leave vs vs' g1 g2 e2); [intros x X; apply IA, I1, X|]. split; [exact A2|]. intros x X. rewrite F2 by exact X. apply F, X.
    + pose proof (follows_leave vs _ _ _ _ I1 F) as AL. unfold leave in AL. destruct (HB f1 (fst e2, snd f2) (incl_refl _) AL) as [Q2 F2].
      destruct b as [b|].
      * destruct (block_mean_with mean None b f1) as [i1 g1]. destruct (block_mean_with (mean_scoped own_it) None b (fst e2, snd f2)) as [i2 g2]. cbn [fst snd] in *. subst i2.
        do 4 eexists; split; [reflexivity|]; split; [reflexivity|]. split; [|reflexivity]. exact (follows_leave vs vs2 g1 g2 _ IB F2).
      * do 4 eexists; split; [reflexivity|]; split; [reflexivity|]. split; [exact AL|reflexivity].
  - (* match *)
    intros outer vs c sel arms ns B AP _ H. split; [apply incl_refl|]. intros w K e1 e2 IO A. cbn [mean mean_scoped].
    destruct (enter_same c w K e1 e2) as (w' & K' & -> & ->). cbn [m_env]. unfold inside.
    destruct (binds_follows vs vs ns sel e1 e2 B AP A) as [Q F]. destruct (sel e1) as [i f1]. destruct (sel e2) as [i2 f2]. cbn [fst snd] in *. subst i2.
    assert (I1 : incl vs (ns ++ vs)) by apply incl_appr, incl_refl.
    unfold put_items. cbn [m_place m_chunks m_env].
    change ((fix pick (l : list (option cursor * list quoted)) (i : nat) {struct l} := match l, i with | (paren, qs) :: _, O => block_mean_with mean paren qs f1 | _ :: arms', S i' => pick arms' i' | [], _ => ([], f1) end) arms i) with (pick_mean f1 arms i).
    change ((fix pick (l : list (option cursor * list quoted)) (i : nat) {struct l} := match l, i with | (paren, qs) :: _, O => block_mean_with (mean_scoped own_it) paren qs f2 | _ :: arms', S i' => pick arms' i' | [], _ => ([], f2) end) arms i) with (pick_scoped own_it f2 arms i).
    destruct (H i f1 f2 I1 (proj1 F)) as [Q2 [A2 F2]]. destruct (pick_mean f1 arms i) as [i1 g1]. destruct (pick_scoped own_it f2 arms i) as [i2 g2]. cbn [fst snd] in *. subst i2.
    do 4 eexists; split; [reflexivity|]; split; [reflexivity|]. split; [|reflexivity].
    apply (follows_leave vs (ns ++ vs) g1 g2 e2); [exact I1|]. split; [exact A2|]. intros x X. rewrite F2 by exact X. apply F, X.
  - (* let *)
    intros outer vs c f ns B AP. split; [apply incl_appr, incl_refl|]. intros w K e1 e2 IO A. cbn [mean mean_scoped].
    destruct (enter_same c w K e1 e2) as (w' & K' & -> & ->). cbn [m_env]. destruct (binds_follows outer vs ns _ e1 e2 B AP A) as [_ F]. cbn [only snd] in F.
    unfold put_items. cbn [m_place m_chunks m_env fst snd]. do 4 eexists; split; [reflexivity|]; split; [reflexivity|]. exact F.
  - intros outer vs. split; [apply incl_refl|]. intros w K e1 e2 IO A. do 4 eexists; split; [reflexivity|]; split; [reflexivity|]; apply follows_refl, A.
  - intros outer vs x vs1 qs vs2 _ [I1 H1] _ [I2 H2]. split; [eapply incl_tran; eauto|]. intros w K e1 e2 IO A. cbn [fold_left].
    destruct (H1 w K e1 e2 IO A) as (w1 & K1 & f1 & f2 & -> & -> & [A1 F1]).
    destruct (H2 w1 K1 f1 f2 (incl_tran IO I1) A1) as (w2 & K2 & g1 & g2 & -> & -> & [A2 F2]).
    do 4 eexists; split; [reflexivity|]; split; [reflexivity|]. split; [exact A2|]. intros x0 X. rewrite F2 by exact X. apply F1, X.
  - intros; split; [apply incl_refl|]; intros w K e1 e2 IO A; cbn [string_mean string_mean_scoped]; do 4 eexists; split; [reflexivity|]; split; [reflexivity|]; apply follows_refl, A.
  - intros; split; [apply incl_refl|]; intros w K e1 e2 IO A; cbn [string_mean string_mean_scoped]; do 4 eexists; split; [reflexivity|]; split; [reflexivity|]; apply follows_refl, A.
  - intros; split; [apply incl_refl|]; intros w K e1 e2 IO A; cbn [string_mean string_mean_scoped]; do 4 eexists; split; [reflexivity|]; split; [reflexivity|]; apply follows_refl, A.
  - intros outer vs c v U. split; [apply incl_refl|]. intros w K e1 e2 IO A. cbn [string_mean string_mean_scoped]. unfold inside.
    destruct (uses_leave vs v e1 e2 U A) as [Q L]. unfold leave in L.
    destruct (v e1) as [a f1]. destruct (v e2) as [b f2]. cbn [fst snd] in *. subst b.
    do 4 eexists; split; [reflexivity|]; split; [reflexivity|]. split; [exact L|]. reflexivity.
  - intros; split; [apply incl_refl|]; intros w K e1 e2 IO A; cbn [string_mean string_mean_scoped]; do 4 eexists; split; [reflexivity|]; split; [reflexivity|]; apply follows_refl, A.
  - intros outer vs c qs vs' _ H. destruct (block_body _ _ (Some (eval_span c qs)) _ _ H) as [IN H']. split; [exact IN|]. intros w K e1 e2 IO A.
    rewrite mean_eval, scoped_eval. destruct (H' e1 e2 IO A) as [Q F].
    destruct (block_mean_with mean (Some (eval_span c qs)) qs e1) as [i1 g1]. destruct (block_mean_with (mean_scoped own_it) (Some (eval_span c qs)) qs e2) as [i2 g2]. cbn [fst snd] in *. subst i2.
    do 4 eexists; split; [reflexivity|]; split; [reflexivity|]. exact F.
  - intros outer vs. split; [apply incl_refl|]. intros w K e1 e2 IO A. do 4 eexists; split; [reflexivity|]; split; [reflexivity|]; apply follows_refl, A.
  - intros outer vs x vs1 qs vs2 _ [I1 H1] _ [I2 H2]. split; [eapply incl_tran; eauto|]. intros w K e1 e2 IO A. cbn [fold_left].
    destruct (H1 w K e1 e2 IO A) as (w1 & K1 & f1 & f2 & -> & -> & [A1 F1]).
    destruct (H2 w1 K1 f1 f2 (incl_tran IO I1) A1) as (w2 & K2 & g1 & g2 & -> & -> & [A2 F2]).
    do 4 eexists; split; [reflexivity|]; split; [reflexivity|]. split; [exact A2|]. intros x0 X. rewrite F2 by exact X. apply F1, X.
  - intros vs. split; [exact I|]. exists vs. split; [apply incl_refl|]. intros e1 e2 _ A. split; [reflexivity|apply follows_refl, A].
  - intros vs paren js vs' NI _ H. split; [exact NI|]. exists vs'. apply block_body, H.
  - intros vs. exists vs. split; [apply incl_refl|]. intros e1 e2 _ A. split; [reflexivity|apply follows_refl, A].
  - intros vs qs vs' _ H. exists vs'. apply block_body, H.
  - intros outer vs i e1 e2 IO A. destruct i; (split; [reflexivity|apply follows_refl, A]).
  - intros outer vs paren qs vs' arms _ H _ IH i e1 e2 IO A. destruct i as [|i]; cbn [pick_mean pick_scoped]; [|apply IH; auto].
    destruct (block_body _ _ paren _ _ H) as [IN H']. destruct (H' e1 e2 IO A) as [Q [A2 F]]. split; [exact Q|]. split; [eapply alike_incl; eauto|exact F].
Qed.
End Facts.
