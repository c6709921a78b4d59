(** * Lemmas: quotes without line information. *)
From Verif Require Import Str SpecStr StrFacts Tokens SpecTokens TokensRun TokensFacts Values ValuesFacts Fmt SpecFmt OutputFacts
  Macro SpecMacro MacroFacts MacroSem MacroTokens MacroLines MacroRender Parse SpecParse ParseFacts SpecQuote Fake SpecStable.

(** ** Offsets *)
Lemma parse_read : forall ds acc s, read_digits dec_digit s = Some ds -> (forall ds1 ds2, ds = ds1 ++ ds2 -> fold_left (fun a d => a * 10 + d) ds1 acc < 2 ^ 64)%N ->
  parse_digits acc s = Some (fold_left (fun a d => (a * 10 + d)%N) ds acc).
Proof.
  intros ds acc s. revert ds acc. induction s as [|c s IH]; intros ds acc R B; cbn [read_digits] in R.
  - injection R as <-. reflexivity.
  - destruct (dec_digit c) as [d|] eqn:D; [|discriminate]. destruct (read_digits dec_digit s) as [ds'|] eqn:R'; [|discriminate]. injection R as <-.
    cbn [parse_digits]. unfold dec_digit in D. destruct ((48 <=? c) && (c <=? 57))%N; [|discriminate]. injection D as <-.
    replace (10 * acc + (c - 48))%N with (acc * 10 + (c - 48))%N by lia.
    pose proof (B [(c - 48)%N] ds' eq_refl) as B1. cbn [fold_left] in B1. apply N.ltb_lt in B1. rewrite B1. cbn [fold_left]. apply IH; [reflexivity|].
    intros ds1 ds2 ->. apply (B ((c - 48)%N :: ds1) ds2). reflexivity.
Qed.
Lemma fold_le : forall ds acc, (acc <= fold_left (fun a d => a * 10 + d) ds acc)%N.
Proof. induction ds as [|d ds IH]; intros acc; cbn [fold_left]; [lia|]. specialize (IH (acc * 10 + d)%N). lia. Qed.
Lemma parse_dec : forall n, (n < 2 ^ 64)%N -> parse_usize (dec n) = Some n.
Proof.
  intros n B. pose proof (dec_read n) as R. unfold read_dec in R.
  assert (NP : forall c s, dec n = c :: s -> c <> 43%N).
  { intros c s Q. rewrite Q in R. cbn [read_digits] in R. intros ->. cbn in R. discriminate. }
  destruct (dec n) as [|c s] eqn:D; [discriminate|]. unfold parse_usize. specialize (NP c s eq_refl). apply N.eqb_neq in NP. rewrite NP.
  destruct (read_digits dec_digit (c :: s)) as [ds|] eqn:RD; [|discriminate]. cbn [option_map] in R. injection R as R. unfold digits_value in R.
  rewrite (parse_read ds); [rewrite R; reflexivity|exact RD|]. intros ds1 ds2 ->. rewrite fold_left_app in R.
  pose proof (fold_le ds2 (fold_left (fun a d => a * 10 + d) ds1 0)%N). lia.
Qed.
Lemma find_skip : forall ch pre s, ~ In ch pre -> find_after ch (pre ++ ch :: s) = Some s.
Proof.
  intros ch pre s. induction pre as [|c pre IH]; intros N; cbn [app find_after]; [rewrite N.eqb_refl; reflexivity|].
  destruct (N.eqb_spec c ch); [exfalso; apply N; left; auto|]. apply IH. intros I. apply N. right. exact I.
Qed.
Lemma split_skip : forall a b, ~ In 46%N a -> split_dots (a ++ 46%N :: 46%N :: b) = Some (a, b).
Proof.
  induction a as [|c a IH]; intros b N; [reflexivity|]. cbn [app split_dots]. destruct (N.eqb_spec c 46); [exfalso; apply N; left; auto|].
  rewrite IH by (intros I; apply N; right; exact I). reflexivity.
Qed.
Lemma dec_no_dot : forall n, ~ In 46%N (dec n).
Proof.
  intros n I. pose proof (dec_read n) as R. unfold read_dec in R. destruct (dec n) as [|c s]; [discriminate|].
  destruct (read_digits dec_digit (c :: s)) as [ds|] eqn:D; [clear R|discriminate].
  revert ds D. induction (c :: s) as [|x l IH]; intros ds D; [contradiction|]. cbn [read_digits] in D.
  destruct (dec_digit x) as [d|] eqn:X; [|discriminate]. destruct (read_digits dec_digit l) as [ds'|] eqn:D'; [|discriminate].
  destruct I as [->|I]; [cbn in X; discriminate|]. eapply IH; eauto.
Qed.
Lemma offsets : forall pre a b, ~ In 40%N pre -> (a < 2 ^ 64)%N -> (b < 2 ^ 64)%N ->
  find_line_column_inner (span_text pre a b) = Some (a, b).
Proof.
  intros pre a b N A B. unfold find_line_column_inner, span_text.
  change ($"(" ++ dec a ++ $".." ++ dec b ++ $")") with (40%N :: (dec a ++ $".." ++ dec b ++ $")")). rewrite find_skip by exact N. cbn [bind].
  unfold drop_last. rewrite !app_assoc, rev_app_distr. change (rev $")") with [41%N]. cbn [app]. change (is_ascii 41) with true. cbv iota.
  rewrite rev_involutive. cbn [bind]. rewrite <- app_assoc. change ($".." ++ dec b) with (46%N :: 46%N :: dec b).
  rewrite split_skip by apply dec_no_dot. cbn [bind]. rewrite (parse_dec a A), (parse_dec b B). reflexivity.
Qed.

(** ** Reading *)
Section Cursors.
Context {LI E : Type} (row : nat).
Notation quoted := (quoted_item LI E).
Notation sitem := (string_item LI E).
Notation on := (on_line row).

Fixpoint flatq (x : quoted) : Prop :=
  let all := fix all (l : list quoted) : Prop := match l with [] => True | x :: l' => flatq x /\ all l' end in
  on (cursor_of x) /\
  match x with
  | QGroup _ _ qs => all qs
  | QString _ p ps => on p /\
      (fix alls (l : list sitem) : Prop := match l with [] => True | x :: l' => flats_in x /\ alls l' end) ps
  | QLoop _ _ join body => match join with Some (p, js) => on p /\ all js | None => True end /\ all body
  | QIf _ _ a b => all a /\ match b with Some b => all b | None => True end
  | QMatch _ _ arms =>
      (fix every (l : list (option cursor * list quoted)) : Prop :=
         match l with [] => True | (p, qs) :: l' => (match p with Some p => on p | None => True end /\ all qs) /\ every l' end) arms
  | _ => True
  end
with flats_in (x : sitem) : Prop :=
  on (string_cursor x) /\
  match x with
  | PEval _ qs => (fix all (l : list quoted) : Prop := match l with [] => True | x :: l' => flatq x /\ all l' end) qs
  | _ => True
  end.
Fixpoint flat_all (l : list quoted) : Prop := match l with [] => True | x :: l' => flatq x /\ flat_all l' end.
Lemma flat_forall l : flat_all l <-> Forall flatq l.
Proof. induction l as [|x l IH]; cbn [flat_all]; [split; auto|]. rewrite IH. split; [intros []; constructor; auto|inversion 1; auto]. Qed.
Fixpoint flat_alls (l : list sitem) : Prop := match l with [] => True | x :: l' => flats_in x /\ flat_alls l' end.
Lemma flats_forall l : flat_alls l <-> Forall flats_in l.
Proof. induction l as [|x l IH]; cbn [flat_alls]; [split; auto|]. rewrite IH. split; [intros []; constructor; auto|inversion 1; auto]. Qed.
Definition flat_arm (a : option cursor * list quoted) : Prop := match fst a with Some p => on p | None => True end /\ Forall flatq (snd a).
Fixpoint flat_arms (l : list (option cursor * list quoted)) : Prop :=
  match l with [] => True | (p, qs) :: l' => (match p with Some p => on p | None => True end /\ flat_all qs) /\ flat_arms l' end.
Lemma arms_forall l : flat_arms l <-> Forall flat_arm l.
Proof.
  induction l as [|[p qs] l IH]; cbn [flat_arms]; [split; auto|]. rewrite IH, flat_forall. split; [intros [[] ]; constructor; auto; split; auto|].
  inversion 1 as [|? ? [A B]]; subst. auto.
Qed.

Fixpoint tall (l : list tree) : Prop := match l with [] => True | t :: l' => tree_all on t /\ tall l' end.
Lemma tall_forall l : tall l <-> Forall (tree_all on) l.
Proof. induction l as [|x l IH]; cbn [tall]; [split; auto|]. rewrite IH. split; [intros []; constructor; auto|inversion 1; auto]. Qed.
Lemma group_all c d ts : tree_all on (TGroup c d ts) <-> on c /\ Forall (tree_all on) ts.
Proof. rewrite <- tall_forall. reflexivity. Qed.
Lemma spanning_on a b : on a -> on b -> on (spanning a b).
Proof. intros [] []. split; assumption. Qed.
Lemma tree_cursor_on t : tree_all on t -> on (tree_cursor t).
Proof. destruct t; cbn; tauto. Qed.

Context {P X : Type} (R : rust LI E P X) (C : consuming R).
Notation FT := (Forall (tree_all on)).
Lemma rest_on {A} (f : list tree -> option (A * list tree)) ts x rest : consumes f -> f ts = Some (x, rest) -> FT ts -> FT rest.
Proof. intros H Q F. destruct (H _ _ _ Q) as (used & ->). apply Forall_app in F. tauto. Qed.

Ltac split_trees :=
  repeat match goal with
  | H : FT (_ :: _) |- _ => inversion H; subst; clear H
  | H : FT (_ ++ _) |- _ => apply Forall_app in H; destruct H
  | H : tree_all on (TGroup _ _ _) |- _ => apply group_all in H; destruct H
  end.
Ltac rests :=
  repeat match goal with
  | Q : r_head R ?ts = Some (_, ?rest), F : FT ?ts |- _ =>
      pose proof (rest_on (r_head R) _ _ _ (proj2 (proj2 (proj2 C))) Q F); clear Q
  | Q : r_expr R ?ts = Some (_, ?rest), F : FT ?ts |- _ =>
      pose proof (rest_on (r_expr R) _ _ _ (proj1 (proj2 (proj2 C))) Q F); clear Q
  | Q : r_pats R ?ts = Some (_, ?rest), F : FT ?ts |- _ =>
      pose proof (rest_on (r_pats R) _ _ _ (proj1 (proj2 C)) Q F); clear Q
  | Q : r_pat R ?ts = Some (_, ?rest), F : FT ?ts |- _ =>
      pose proof (rest_on (r_pat R) _ _ _ (proj1 C) Q F); clear Q
  end.
Lemma reads_on : forall ts qs, reads R ts qs -> FT ts -> Forall flatq qs.
Proof.
  apply (reads_min LI E P X R
    (fun ts qs => FT ts -> Forall flatq qs)
    (fun c ts q => on c -> FT ts -> flatq q)
    (fun ts join rest => FT ts -> match join with Some (p, js) => on p /\ Forall flatq js | None => True end /\ FT rest)
    (fun ts qs => FT ts -> Forall flatq qs)
    (fun ts arms => FT ts -> Forall flat_arm (map snd arms))
    (fun ts arms => FT ts -> Forall flat_arm (map snd arms))
    (fun ts _ rest => FT ts -> FT rest)
    (fun ts ps => FT ts -> Forall flats_in ps)); intros; split_trees; rests; split_trees; rests; split_trees;
  repeat match goal with H : tree_all on (TPunct _ _ _) |- _ => change (on c) in H || cbn [tree_all] in H | H : tree_all on (TIdent _ _) |- _ => cbn [tree_all] in H
    | H : tree_all on (TStr _ _ _) |- _ => cbn [tree_all] in H | H : tree_all on (TChar _ _ _) |- _ => cbn [tree_all] in H end.
  all: try (constructor; auto; fail).
  all: try (constructor; [|auto]; split; [apply spanning_on; assumption|exact I]).
  all: try (split; [assumption|exact I]).
  all: repeat match goal with
  | H : FT ?ts -> _, F : FT ?ts |- _ => specialize (H F)
  | H : FT [] -> _ |- _ => specialize (H (Forall_nil _))
  end.
  all: cbn [map snd]; try assumption.
  all: repeat match goal with
  | H : FT (_ :: _) |- _ => inversion H; subst; clear H
  | H : FT (_ ++ _) |- _ => apply Forall_app in H; destruct H
  | H : tree_all on (TGroup _ _ _) |- _ => apply group_all in H; destruct H
  end;
  repeat match goal with
  | H : FT ?ts -> _, F : FT ?ts |- _ => specialize (H F)
  end; try assumption.
  - constructor; [|assumption]. auto using spanning_on.
  - constructor; [|assumption]. split; [apply spanning_on; assumption|]. split; [assumption|]. apply flats_forall. assumption.
  - constructor; [|assumption]. split; [assumption|]. apply flat_forall. assumption.
  - constructor; [|assumption]. split; [apply tree_cursor_on; assumption|exact I].
  - split; [assumption|]. split; [|exact I]. apply flat_forall. assumption.
  - split; [assumption|]. split; [|exact I]. apply flat_forall. assumption.
  - split; [assumption|]. split; apply flat_forall; assumption.
  - split; [assumption|]. match goal with H : _ /\ FT _ |- _ => destruct H as [J F] end. split.
    + destruct join as [[]|]; [|exact I]. destruct J. split; [assumption|]. apply flat_forall. assumption.
    + apply flat_forall. auto.
  - split; [assumption|]. apply arms_forall. assumption.
  - constructor; [|assumption]. split; [exact I|assumption].
  - constructor; [|assumption]. split; assumption.
  - constructor; [|assumption]. split; [exact I|assumption].
  - constructor; [|assumption]. split; [apply spanning_on; assumption|]. apply flat_forall. assumption.
  - constructor; [|assumption]. split; [apply tree_cursor_on; assumption|exact I].
Qed.

(** ** Acceptance *)
Notation encoder := (encoder LI E).
Definition calm_enc (s : encoder) : Prop :=
  (forall p, e_span_start s = Some p -> p_line p = row) /\ (forall p, e_span_end s = Some p -> p_line p = row) /\
  (forall c, e_last s = Some c -> on c).
Lemma flush_calm s : calm_enc s -> calm_enc (flush s).
Proof. intros H. unfold flush. destruct (e_buffer s); exact H. Qed.
Lemma tokenize_calm f to (s : encoder) : p_line f = row -> p_line to = row -> calm_enc s ->
  exists s', tokenize_whitespace f to s = Some s' /\ calm_enc s' /\ e_span_end s' = e_span_end s.
Proof.
  intros F T H. unfold tokenize_whitespace. rewrite F, T, Nat.eqb_refl. cbn [andb].
  destruct (p_col f =? p_col to); [eauto|]. destruct (p_col f <? p_col to); [|eauto].
  eexists. split; [reflexivity|]. split; [|unfold flush; destruct (e_buffer s); reflexivity]. apply (flush_calm s H).
Qed.
Lemma from_calm (s : encoder) : calm_enc s -> let '(f, s') := from s in
  calm_enc s' /\ (forall p, f = Some p -> p_line p = row).
Proof.
  intros H. pose proof H as (A & B & D). unfold from. destruct (e_span_start s) as [p|] eqn:Q.
  - split; [|intros q [= <-]; auto]. split; [discriminate|]. split; assumption.
  - destruct (e_last s) as [l|] eqn:L.
    + split; [|intros q [= <-]; apply D; reflexivity]. destruct (e_last_start_column s); exact H.
    + split; [exact H|discriminate].
Qed.
Lemma step_calm c s : on c -> calm_enc s -> exists s', step c s = Some s' /\ calm_enc s'.
Proof.
  intros O H. unfold step. pose proof (from_calm s H) as F. destruct (from s) as [f s1]. destruct F as [C1 F].
  destruct f as [p|].
  - destruct (tokenize_calm p (c_start c) s1 (F p eq_refl) (proj1 O) C1) as (s2 & -> & (A & B & D) & _).
    eexists. split; [reflexivity|]. split; [exact A|]. split; [exact B|]. intros q [= <-]. exact O.
  - eexists. split; [reflexivity|]. destruct C1 as (A & B & D). split; [exact A|]. split; [exact B|]. intros q [= <-]. exact O.
Qed.
Lemma finalize_calm s : calm_enc s -> finalize s <> None.
Proof.
  intros H. unfold finalize. destruct (e_span_end s) as [to|] eqn:Q; [|discriminate].
  assert (H1 : calm_enc (set_span_end None s)) by (destruct H as (A & B & D); split; [exact A|]; split; [discriminate|exact D]).
  pose proof (from_calm _ H1) as F. destruct (from (set_span_end None s)) as [f s1]. destruct F as [C1 F].
  destruct f as [p|]; [|discriminate].
  destruct (tokenize_calm p to s1 (F p eq_refl) (proj1 (proj2 H) _ Q) C1) as (s2 & -> & _). discriminate.
Qed.
Definition takes (x : quoted) : Prop := flatq x -> forall s, calm_enc s -> exists s', encode x s = Some s' /\ calm_enc s'.
Definition scalm (s : sencoder LI E) : Prop := forall p, s_cursor s = Some p -> p_line p = row.
Definition stakes (x : sitem) : Prop := flats_in x -> forall s, scalm s -> exists s', sencode x s = Some s' /\ scalm s'.
Lemma fold_takes qs : Forall takes qs -> Forall flatq qs -> forall s, calm_enc s -> exists s', fold_opt encode qs s = Some s' /\ calm_enc s'.
Proof.
  induction 1 as [|x qs H _ IH]; intros F s K; [eexists; split; [reflexivity|exact K]|]. inversion F; subst. cbn [fold_opt].
  destruct (H H2 s K) as (s1 & -> & K1). apply IH; assumption.
Qed.
Lemma block_takes span qs : Forall takes qs -> Forall flatq qs -> match span with Some c => on c | None => True end -> block_with encode span qs <> None.
Proof.
  intros T F O. unfold block_with.
  assert (K : calm_enc (encoder_new (option_map inner_start span) (option_map inner_end span))).
  { destruct span as [c|]; (split; [|split; [|discriminate]]); cbn; try discriminate; intros p [= <-]; apply O. }
  destruct (fold_takes qs T F _ K) as (s1 & -> & K1). cbn [bind]. apply finalize_calm. exact K1.
Qed.
Lemma block_some span qs : Forall takes qs -> Forall flatq qs -> match span with Some c => on c | None => True end ->
  exists r, block_with encode span qs = Some r.
Proof. intros T F O. pose proof (block_takes span qs T F O). destruct (block_with encode span qs); [eauto|congruence]. Qed.
Lemma flush_ws_calm c (s : sencoder LI E) : on c -> scalm s -> exists s', flush_whitespace (Some (c_start c)) (Some (c_end c)) s = Some s' /\ scalm s'.
Proof.
  intros O K. unfold flush_whitespace. destruct (s_cursor s) as [p|] eqn:Q.
  - rewrite (K p Q), (proj1 O), Nat.eqb_refl. eexists. split; [reflexivity|]. intros q [= <-]. apply O.
  - eexists. split; [reflexivity|]. intros q [= <-]. apply O.
Qed.
Lemma str_calm t c (s : sencoder LI E) : on c -> scalm s -> exists s', encode_str t c s = Some s' /\ scalm s'.
Proof. intros O K. unfold encode_str. destruct (flush_ws_calm c s O K) as (s1 & -> & K1). eexists. split; [reflexivity|exact K1]. Qed.
Lemma semit_calm g b r c (s : sencoder LI E) : on c -> scalm s -> exists s', semit g b r c s = Some s' /\ scalm s'.
Proof.
  intros O K. unfold semit, sflush. destruct (flush_ws_calm c s O K) as (s1 & -> & K1). cbn [bind].
  destruct (s_buf s1); eexists; (split; [reflexivity|exact K1]).
Qed.
Lemma string_takes ps paren : Forall stakes ps -> Forall flats_in ps -> on paren ->
  exists r, bind (fold_opt sencode ps (sencoder_new (inner_start paren))) (sflush (Some (inner_end paren)) None) = Some r.
Proof.
  intros T F O. assert (S : forall s : sencoder LI E, scalm s -> exists s', fold_opt sencode ps s = Some s' /\ scalm s').
  { clear O. induction T as [|x ps H _ IH]; intros s K; [eexists; split; [reflexivity|exact K]|]. inversion F; subst. cbn [fold_opt].
    destruct (H H2 s K) as (s1 & -> & K1). apply IH; assumption. }
  destruct (S (sencoder_new (inner_start paren))) as (s1 & -> & K1); [intros p [= <-]; apply O|]. cbn [bind].
  unfold sflush, flush_whitespace. destruct (s_cursor s1) as [p|] eqn:Q.
  - rewrite (K1 p Q). cbn [inner_end p_line]. rewrite (proj2 O), Nat.eqb_refl. cbn. destruct (s_buf s1 ++ _); eauto.
  - cbn. destruct (s_buf s1); eauto.
Qed.
Lemma first_on c : on c -> on (first_character c).
Proof. intros O. split; [apply O|exact (proj1 O)]. Qed.
Lemma last_on c : on c -> on (last_character c).
Proof. intros O. split; [exact (proj2 O)|apply O]. Qed.
Lemma after_step c s (F : encoder -> encoder) : on c -> calm_enc s -> (forall s, calm_enc s -> calm_enc (F s)) ->
  exists s', bind (step c s) (fun s => Some (F s)) = Some s' /\ calm_enc s'.
Proof. intros O K H. destruct (step_calm c s O K) as (s1 & -> & K1). eexists. split; [reflexivity|auto]. Qed.
Theorem all_take : (forall x, takes x) /\ (forall x, stakes x).
Proof.
  assert (EF : forall g s, calm_enc s -> calm_enc (emit g (flush s))) by (intros g s K; exact (flush_calm s K)).
  assert (RQ : forall b s, calm_enc s -> calm_enc (require b s)) by (intros b s K; exact K).
  assert (BP : forall t s, calm_enc s -> calm_enc (buffer_push t s)) by (intros b s K; exact K).
  apply quoted_string_ind; unfold takes, stakes.
  - intros c t [O _] s K. apply after_step; auto.
  - intros c [O _] s K. apply after_step; auto.
  - intros c t [O _] s K. apply after_step; auto.
  - intros c t [O _] s K. apply (after_step c s (fun s => emit _ (flush s))); auto.
  - intros c d qs IH [O V] s K. change (flat_all qs) in V. rewrite flat_forall in V. cbn [cursor_of] in O. cbn [encode].
    destruct (step_calm _ s (first_on c O) K) as (s1 & -> & K1). cbn [bind].
    destruct (fold_takes qs IH V _ (BP (open_char d) s1 K1)) as (s2 & -> & K2). cbn [bind]. apply after_step; auto using last_on.
  - intros c paren ps IH [O [OP V]] s K. change (flat_alls ps) in V. rewrite flats_forall in V. rewrite encode_string.
    destruct (string_takes ps paren IH V OP) as (r & Q). rewrite Q. cbn [bind].
    apply (after_step c _ (fun s => emit _ (flush (require _ s)))); auto.
  - intros c k [O _] s K. apply (after_step c s (fun s => emit _ (flush s))); auto.
  - intros c v [O _] s K. apply (after_step c s (fun s => emit _ (flush s))); auto.
  - intros c v [O _] s K. apply (after_step c s (fun s => emit _ (flush s))); auto.
  - intros c v [O _] s K. apply (after_step c s (fun s => emit _ s)); auto.
  - intros c it join body J B [O [VJ VB]] s K. change (flat_all body) in VB. rewrite flat_forall in VB. cbn [encode].
    assert (XJ : exists j, match join with Some (paren, js) => bind (block_with encode (Some paren) js) (fun r => Some (Some r)) | None => Some None end = Some j).
    { destruct join as [[p js]|]; [|eauto]. destruct VJ as [OP VJ]. change (flat_all js) in VJ. rewrite flat_forall in VJ.
      destruct (block_some (Some p) js J VJ OP) as (r & ->). cbn. eauto. }
    destruct XJ as (j & ->). destruct (block_some None body B VB I) as (b & ->). cbn [bind].
    apply (after_step c _ (fun s => emit _ (flush s))); auto.
  - intros c cond a b A B [O [VA VB]] s K. change (flat_all a) in VA. rewrite flat_forall in VA. cbn [encode].
    destruct (block_some None a A VA I) as (ra & ->). cbn [bind].
    assert (XB : exists j, match b with Some qs => bind (block_with encode None qs) (fun r => Some (Some r)) | None => Some None end = Some j).
    { destruct b as [b|]; [|eauto]. change (flat_all b) in VB. rewrite flat_forall in VB. destruct (block_some None b B VB I) as (r & ->). cbn. eauto. }
    destruct XB as (rb & ->). cbn [bind]. apply (after_step c _ (fun s => emit _ (flush s))); auto.
  - intros c sel arms A [O V] s K. change (flat_arms arms) in V. rewrite arms_forall in V. cbn [encode].
    match goal with |- exists s', bind ?o _ = _ /\ _ => assert (XR : exists r, o = Some r) end.
    { generalize (false, @nil (list (stmt LI E))). clear O. induction A as [|[p qs] arms HA _ IH]; intros acc; [cbn; eauto|].
      inversion V as [|? ? [OP VQ] V']; subst. cbn [fst snd] in *. cbn [fold_opt].
      destruct (block_some p qs HA VQ OP) as (r & ->). cbn [bind]. apply IH. exact V'. }
    destruct XR as (r & ->). cbn [bind]. apply (after_step c _ (fun s => emit _ (flush s))); auto.
  - intros c f [O _] s K. apply (after_step c s (fun s => emit _ (flush s))); auto.
  - intros c t [O _] s K. apply str_calm; assumption.
  - intros c [O _] s K. apply str_calm; assumption.
  - intros c t [O _] s K. apply str_calm; assumption.
  - intros c v [O _] s K. apply semit_calm; assumption.
  - intros c n [O _] s K. apply semit_calm; assumption.
  - intros c qs IH [O V] s K. change (flat_all qs) in V. rewrite flat_forall in V. cbn [string_cursor] in O. rewrite encode_eval, <- span_eval.
    assert (OS : on (content_span c qs)).
    { destruct qs as [|x qs]; [apply last_on, O|]. cbn [content_span]. inversion V as [|? ? V1]; subst.
      assert (OX : on (cursor_of x)) by (destruct x; apply V1). unfold first_token. destruct x; try (apply first_on; exact OX); exact OX. }
    destruct (block_some (Some (content_span c qs)) qs IH V OS) as (r & Q). rewrite Q. cbn [bind]. apply semit_calm; assumption.
Qed.
Theorem flat_accepted qs : Forall flatq qs -> quote_code qs <> None.
Proof. intros F. apply block_takes; [|exact F|exact I]. apply Forall_forall. intros x _. apply (proj1 all_take). Qed.

(** ** No line breaks *)
Definition still (its : list (item LI)) : Prop := forall t : tokens LI, unbroken t -> unbroken (extend its t).
Lemma still_nil : still [].
Proof. intros t U. exact U. Qed.
Lemma still_app a b : still a -> still b -> still (a ++ b).
Proof. intros A B t U. rewrite extend_app. apply B, A, U. Qed.
Lemma unbroken_r (t : tokens LI) : unbroken t <-> Forall no_break (ritems t).
Proof.
  unfold unbroken, items. split; intros F; [|apply Forall_rev; exact F]. rewrite <- (rev_involutive (ritems t)). apply Forall_rev. exact F.
Qed.
Lemma still_item x : no_break x -> still [x].
Proof.
  intros N t U. rewrite unbroken_r in *. destruct t as [r la]. cbn [ritems] in U. cbn [extend fold_left].
  destruct x; try contradiction; cbn; try (constructor; [exact I|assumption]).
  unfold space. cbn. destruct r as [|[] r]; try (constructor; [exact I|assumption]); cbn; inversion U; subst; try contradiction; repeat constructor; assumption.
Qed.
Lemma still_items its : Forall no_break its -> still its.
Proof. induction 1 as [|x its N _ IH]; [apply still_nil|]. apply (still_app [x]); [apply still_item, N|exact IH]. Qed.
Definition still_chunk (k : chunk LI) : Prop := match k with KText _ => True | KItems its => still its end.
Lemma still_literal b : still (literal b).
Proof. apply still_items. destruct b; repeat constructor. Qed.
Lemma still_join ks : Forall still_chunk ks -> forall b, still (join_texts b ks).
Proof.
  induction 1 as [|k ks H _ IH]; intros b; cbn [join_texts]; [apply still_literal|]. destruct k; [apply IH|].
  apply still_app; [apply still_literal|]. apply still_app; [exact H|apply IH].
Qed.
Definition at_row (w : place) : Prop := match w with None => True | Some (f, cols) => p_line f = row /\ length cols = 1 end.
Definition ready (st : mstate LI E) : Prop := at_row (m_place st) /\ Forall still_chunk (m_chunks st).
Lemma enter_ready c st : on c -> ready st -> ready (enter_chunks c st).
Proof.
  intros O [A F]. unfold enter_chunks. destruct (m_place st) as [[f cols]|]; cbn [enter].
  - destruct A as [A L]. unfold gap. rewrite A, (proj1 O), Nat.eqb_refl. cbn [option_map]. split; cbn [m_place m_chunks].
    + split; [apply O|exact L].
    + apply Forall_app. split; [exact F|]. destruct (adjacent c _); [constructor|]. constructor; [|constructor].
      cbn [still_chunk]. apply still_items. unfold gap_items. cbn [p_indent p_breaks p_space]. destruct (p_col f <? p_col (c_start c)); repeat constructor.
  - split; cbn [m_place m_chunks]; [split; [apply O|reflexivity]|]. apply Forall_app. split; [exact F|constructor].
Qed.
Lemma put_ready k st : still_chunk k -> ready st -> ready (put k st).
Proof. intros K [A F]. split; [exact A|]. apply Forall_app. auto. Qed.
Lemma put_items_ready r st : still (fst r) -> ready st -> ready (put_items r st).
Proof. intros K [A F]. split; [exact A|]. apply Forall_app. auto. Qed.

Notation EV := (every_value (@calm_value LI E) calm_scope calm_value).
Notation EVI := (every_value_in (@calm_value LI E) calm_scope calm_value).
Definition cv_all := fix all (l : list quoted) : Prop := match l with [] => True | x :: l' => EV x /\ all l' end.
Lemma cv_all_forall l : cv_all l <-> Forall EV l.
Proof. induction l; cbn; [split; auto|]. split; [intros [? ?]; constructor; tauto|inversion 1; tauto]. Qed.
Definition cv_alls := fix alls (l : list sitem) : Prop := match l with [] => True | x :: l' => EVI x /\ alls l' end.
Lemma cv_alls_forall l : cv_alls l <-> Forall EVI l.
Proof. induction l; cbn; [split; auto|]. split; [intros [? ?]; constructor; tauto|inversion 1; tauto]. Qed.
Definition cv_arms := fix every (l : list (option cursor * list quoted)) : Prop := match l with [] => True | (_, qs) :: l' => cv_all qs /\ every l' end.
Lemma cv_arms_forall l : cv_arms l <-> Forall (fun a => Forall EV (snd a)) l.
Proof.
  induction l as [|[p qs] l IH]; cbn; [split; auto|]. rewrite IH, cv_all_forall. split; [intros [? ?]; constructor; tauto|inversion 1; tauto].
Qed.
Definition good (x : quoted) : Prop := flatq x /\ EV x /\ breaks x = false.
Definition goods (x : sitem) : Prop := flats_in x /\ EVI x /\ breaks_in x = false.
Definition keeps (x : quoted) : Prop := good x -> forall st, ready st -> ready (mean x st).
Definition skeeps (x : sitem) : Prop := goods x -> forall at_ ks e, Forall still_chunk ks -> Forall still_chunk (snd (fst (@string_mean LI E x (at_, ks, e)))).
Lemma fold_keeps qs : Forall keeps qs -> Forall good qs -> forall st, ready st -> ready (fold_left (fun st x => mean x st) qs st).
Proof. induction 1 as [|x qs H _ IH]; intros F st D; [exact D|]. inversion F; subst. cbn [fold_left]. apply IH; auto. Qed.
Lemma block_keeps span qs e : Forall keeps qs -> Forall good qs -> match span with Some c => on c | None => True end ->
  still (fst (block_mean_with mean span qs e)).
Proof.
  intros M F O. unfold block_mean_with. cbn [fst].
  assert (D : ready (fold_left (fun st x => mean x st) qs (mk_mstate (start_of span) [] e))).
  { apply fold_keeps; auto. split; [|constructor]. destruct span as [c|]; [|exact I]. split; [exact (proj1 O)|reflexivity]. }
  set (st := fold_left _ qs _) in *.
  assert (D2 : ready match span with Some c => enter_chunks (mk_cursor (before_close c) (before_close c)) st | None => st end).
  { destruct span as [c|]; [|exact D]. apply enter_ready; [|exact D]. split; exact (proj2 O). }
  destruct D2 as [A D2]. apply still_app; [apply still_join, D2|].
  replace (depth _) with 0; [apply still_nil|]. unfold depth. destruct (m_place _) as [[f cols]|]; [|reflexivity]. destruct A as [_ ->]. reflexivity.
Qed.
Lemma loop_keeps (body join : E -> list (item LI) * E) bs : (forall e, still (fst (body e))) -> (forall e, still (fst (join e))) ->
  forall e, still (fst (loop_mean body join bs e)).
Proof.
  intros B J. induction bs as [|b bs IH]; intros e; cbn [loop_mean]; [apply still_nil|].
  specialize (B (b e)). destruct (body (b e)) as [its e1]. cbn [fst] in B.
  assert (S : still (fst match bs with [] => ([], e1) | _ => join e1 end)) by (destruct bs; [apply still_nil|apply J]).
  destruct (match bs with [] => ([], e1) | _ => join e1 end) as [sep e2]. specialize (IH e2). destruct (loop_mean body join bs e2) as [rest e3].
  cbn [fst] in *. apply still_app; [exact B|]. apply still_app; assumption.
Qed.
Lemma value_still (v : expr (value LI)) e : @calm_value LI E v -> still (parts (fst (v e))).
Proof. intros C1 t U. rewrite <- format_into_extend. apply (C1 e t U). Qed.
Lemma exists_false {A} (f : A -> bool) l : existsb f l = false <-> Forall (fun x => f x = false) l.
Proof.
  induction l as [|x l IH]; cbn; [split; auto|]. rewrite orb_false_iff, IH. split; [intros []; constructor; auto|inversion 1; auto].
Qed.
Lemma good_all qs : Forall flatq qs -> Forall EV qs -> existsb breaks qs = false -> Forall good qs.
Proof.
  intros A B D. rewrite exists_false in D. rewrite Forall_forall in *. intros x I. repeat split; auto.
Qed.
Lemma goods_all ps : Forall flats_in ps -> Forall EVI ps -> existsb breaks_in ps = false -> Forall goods ps.
Proof.
  intros A B D. rewrite exists_false in D. rewrite Forall_forall in *. intros x I. repeat split; auto.
Qed.
Theorem all_keep : (forall x, keeps x) /\ (forall x, skeeps x).
Proof.
  apply quoted_string_ind; unfold keeps, skeeps.
  - intros c s [[O _] _] st H. cbn [mean]. apply put_ready; [exact I|]. apply enter_ready; assumption.
  - intros c [[O _] _] st H. cbn [mean]. apply put_ready; [exact I|]. apply enter_ready; assumption.
  - intros c s [[O _] _] st H. cbn [mean]. apply put_ready; [exact I|]. apply enter_ready; assumption.
  - intros c s [[O _] _] st H. cbn [mean]. apply put_ready; [|apply enter_ready; assumption]. apply still_items. repeat constructor.
  - intros c d qs IH [[O V] [W B]] st H. change (flat_all qs) in V. rewrite flat_forall in V. change (cv_all qs) in W. rewrite cv_all_forall in W.
    cbn [breaks] in B. cbn [cursor_of] in O. cbn [mean]. apply put_ready; [exact I|]. apply enter_ready; [apply (last_on c O)|].
    apply (fold_keeps qs IH (good_all qs V W B)). apply put_ready; [exact I|]. apply enter_ready; [apply (first_on c O)|exact H].
  - intros c paren ps IH [[O [OP V]] [W B]] st H. change (flat_alls ps) in V. rewrite flats_forall in V. change (cv_alls ps) in W. rewrite cv_alls_forall in W.
    cbn [breaks] in B. rewrite mean_string. cbv zeta. pose proof (goods_all ps V W B) as G. clear V W B.
    assert (F : forall ps, Forall skeeps ps -> Forall goods ps -> forall at_ ks e, Forall still_chunk ks ->
      Forall still_chunk (snd (fst (fold_left (fun st x => @string_mean LI E x st) ps (at_, ks, e))))).
    { clear. induction 1 as [|x ps H _ IH]; intros V at_ ks e F; inversion V; subst; [exact F|]. cbn [fold_left].
      specialize (H H2 at_ ks e F). destruct (string_mean x (at_, ks, e)) as [[a1 k1] e1]. cbn [fst snd] in H. apply IH; assumption. }
    specialize (F ps IH G (inner_start paren) [] (m_env (enter_chunks c st)) (Forall_nil _)).
    destruct (fold_left _ ps _) as [[a K] e]. cbn [fst snd] in F. apply put_items_ready; [|apply enter_ready; assumption]. cbn [fst].
    change (?x :: ?l ++ ?m) with ([x] ++ l ++ m). apply still_app; [apply still_items; repeat constructor|].
    apply still_app; [|apply still_items; repeat constructor]. apply still_join. apply Forall_app. split; [exact F|]. repeat constructor.
  - intros c k [[O _] [_ B]] st H. cbn [mean]. apply put_ready; [|apply enter_ready; assumption]. apply still_items. cbn [breaks] in B.
    destruct k; try discriminate; repeat constructor.
  - intros c v [[O _] [W _]] st H. cbn [mean]. pose proof (value_still v (m_env (enter_chunks c st)) W) as D. destruct (v _) as [w e]. cbn [fst] in D.
    apply put_items_ready; [exact D|]. apply enter_ready; assumption.
  - intros c v [[O _] [W _]] st H. cbn [mean].
    assert (D : still (flat_map call_parts (fst (v (m_env (enter_chunks c st)))))) by (intros t U; rewrite <- run_extend; apply W; exact U).
    destruct (v _) as [w e]. cbn [fst] in D. apply put_items_ready; [exact D|]. apply enter_ready; assumption.
  - intros c f [[O _] _] st H. cbn [mean]. pose proof (enter_ready c st O H) as [A F]. split; assumption.
  - intros c it join body J B [[O [VJ VB]] [[WJ WB] BR]] st H. change (flat_all body) in VB. rewrite flat_forall in VB. change (cv_all body) in WB. rewrite cv_all_forall in WB.
    cbn [breaks] in BR. apply orb_false_elim in BR as [BJ BB]. cbn [mean]. destruct (it _) as [bs e]. apply put_items_ready; [|apply enter_ready; assumption].
    apply loop_keeps.
    + intros e'. apply block_keeps; [exact B|apply good_all; assumption|exact I].
    + intros e'. destruct join as [[paren js]|]; [|apply still_nil]. destruct VJ as [OP VJ]. change (flat_all js) in VJ. rewrite flat_forall in VJ.
      change (cv_all js) in WJ. rewrite cv_all_forall in WJ. apply block_keeps; [exact J|apply good_all; assumption|exact OP].
  - intros c cond a b A B [[O [VA VB]] [[WA WB] BR]] st H. change (flat_all a) in VA. rewrite flat_forall in VA. change (cv_all a) in WA. rewrite cv_all_forall in WA.
    cbn [breaks] in BR. apply orb_false_elim in BR as [BA BB]. cbn [mean]. destruct (cond _) as [yes e]. apply put_items_ready; [|apply enter_ready; assumption].
    destruct yes; [apply block_keeps; [exact A|apply good_all; assumption|exact I]|].
    destruct b as [b|]; [|apply still_nil]. change (flat_all b) in VB. rewrite flat_forall in VB. change (cv_all b) in WB. rewrite cv_all_forall in WB.
    apply block_keeps; [exact B|apply good_all; assumption|exact I].
  - intros c sel arms A [[O V] [W B]] st H. change (flat_arms arms) in V. rewrite arms_forall in V. change (cv_arms arms) in W. rewrite cv_arms_forall in W.
    cbn [breaks] in B. rewrite exists_false in B.
    cbn [mean]. destruct (sel _) as [i e]. apply put_items_ready; [|apply enter_ready; assumption].
    change (still (fst (pick_mean e arms i))). revert i. clear O H. induction A as [|[paren qs] arms QA _ IH]; intros i; [destruct i; apply still_nil|].
    inversion V as [|? ? [OP VQ] V']; subst. inversion W as [|? ? WQ W']; subst. inversion B as [|? ? BQ B']; subst. cbn [fst snd] in *.
    destruct i; cbn [pick_mean]; [|apply IH; assumption]. apply block_keeps; [exact QA|apply good_all; assumption|exact OP].
  - intros c f [[O _] _] st H. cbn [mean]. apply put_items_ready; [apply still_nil|apply enter_ready; assumption].
  - intros c s _ at_ ks e F. cbn [string_mean fst snd]. apply Forall_app. split; [exact F|repeat constructor].
  - intros c _ at_ ks e F. cbn [string_mean fst snd]. apply Forall_app. split; [exact F|repeat constructor].
  - intros c s _ at_ ks e F. cbn [string_mean fst snd]. apply Forall_app. split; [exact F|repeat constructor].
  - intros c v [_ [W _]] at_ ks e F. cbn [string_mean]. pose proof (value_still v e W) as D. destruct (v e) as [w e1]. cbn [fst snd] in *.
    apply Forall_app. split; [exact F|]. constructor; [exact I|]. constructor; [exact D|constructor].
  - intros c n _ at_ ks e F. cbn [string_mean fst snd]. apply Forall_app. split; [exact F|]. constructor; [exact I|]. constructor; [|constructor].
    apply still_items. repeat constructor.
  - intros c qs IH [[O V] [W B]] at_ ks e F. change (flat_all qs) in V. rewrite flat_forall in V. change (cv_all qs) in W. rewrite cv_all_forall in W.
    cbn [breaks_in] in B. cbn [string_cursor] in O. rewrite mean_eval.
    assert (OS : on (eval_span c qs)).
    { rewrite <- span_eval. destruct qs as [|x qs]; [apply last_on, O|]. cbn [content_span]. inversion V as [|? ? V1]; subst.
      assert (OX : on (cursor_of x)) by (destruct x; apply V1). unfold first_token. destruct x; try (apply first_on; exact OX); exact OX. }
    pose proof (block_keeps (Some (eval_span c qs)) qs e IH (good_all qs V W B) OS) as D.
    destruct (block_mean_with mean (Some (eval_span c qs)) qs e) as [its e1]. cbn [fst snd] in *.
    apply Forall_app. split; [exact F|]. constructor; [exact I|]. constructor; [|constructor].
    change (still ([OpenEval] ++ its ++ [CloseEval])). apply still_app; [apply still_items; repeat constructor|].
    apply still_app; [exact D|apply still_items; repeat constructor].
Qed.
Theorem flat_unbroken qs e t e' t' : Forall flatq qs -> calm qs -> quote_in qs e t = Some (e', t') -> unbroken t -> unbroken t'.
Proof.
  intros F [W B] Q U. unfold quote_in in Q. destruct (quote_code qs) as [[r code]|] eqn:C1; [|discriminate]. cbn [option_map snd] in Q. injection Q as Q.
  rewrite (quote_supplies _ _ _ C1 e t) in Q. apply (f_equal snd) in Q. cbn [snd] in Q. subst t'.
  apply block_keeps; [|apply good_all; assumption|exact I|exact U]. apply Forall_forall. intros x _. apply (proj1 all_keep).
Qed.
End Cursors.

(** ** Output *)
Section Config.
Context {LI : Type} (ops : lang_ops LI) (cfg1 cfg2 : config).
Definition idle {W} (st : fstate W) : Prop := (f_line st = WInitial \/ f_line st = WNone) /\ f_indent st = 0%Z.
Definition same {W} (f g : fstate W -> fstate W * bool) : Prop := forall st, idle st -> f st = g st /\ idle (fst (f st)).
Lemma same_then {W} (a b : fstate W * bool) f g : a = b -> idle (fst a) -> same f g -> and_then a f = and_then b g /\ idle (fst (and_then a f)).
Proof. intros <- I S. destruct a as [st [|]]; cbn in *; [apply S, I|auto]. Qed.
Lemma write_idle {W} (f : W -> W * bool) : same (on_write f) (on_write f).
Proof. intros st I. split; [reflexivity|]. unfold on_write. destruct (f (f_write st)). exact I. Qed.
Lemma padding_idle {W} (wr : writer W) fuel chunk c : forall n, same (write_padding wr fuel chunk c n) (write_padding wr fuel chunk c n).
Proof.
  induction fuel as [|fuel IH]; intros n st I; (split; [reflexivity|]); cbn [write_padding]; [exact I|]. destruct n as [|n]; [exact I|].
  refine (proj2 (same_then _ _ _ _ eq_refl (proj2 (write_idle _ st I)) (IH _))).
Qed.
Lemma flush_idle {W} (wr : writer W) : same (Fmt.flush_whitespace wr cfg1) (Fmt.flush_whitespace wr cfg2).
Proof.
  intros st [L Z0].
  assert (F : forall cfg, Fmt.flush_whitespace wr cfg st =
    write_padding wr (f_spaces st) spaces_len 32 (f_spaces st) (mk_fstate (f_write st) WNone 0 (f_indent st))).
  { intros cfg. unfold Fmt.flush_whitespace. destruct L as [-> | ->]; [|reflexivity]. cbn [into_indent write_lines and_then f_indent]. rewrite Z0.
    change (Z.to_nat (Z.max 0 0)) with 0. destruct (c_indentation cfg); [|reflexivity]. cbn [Nat.mul]. rewrite Nat.add_0_r. reflexivity. }
  rewrite !F. split; [reflexivity|]. apply padding_idle. split; [right; reflexivity|exact Z0].
Qed.
Lemma str_idle {W} (wr : writer W) s : same (write_str wr cfg1 s) (write_str wr cfg2 s).
Proof.
  intros st I. unfold write_str. destruct s; [split; [reflexivity|exact I]|]. destruct (flush_idle wr st I) as [Q J]. apply same_then; [exact Q|exact J|apply write_idle].
Qed.
Lemma strs_idle {W} (wr : writer W) ss : same (write_all_strs wr cfg1 ss) (write_all_strs wr cfg2 ss).
Proof.
  induction ss as [|s ss IH]; intros st I; [split; [reflexivity|exact I]|]. cbn [write_all_strs]. destruct (str_idle wr s st I) as [Q J].
  apply same_then; assumption.
Qed.
Lemma cursor_idle fuel : forall W (wr : writer W) b stack cur st, Forall no_break cur -> idle st ->
  format_cursor ops cfg1 fuel W wr b stack cur st = format_cursor ops cfg2 fuel W wr b stack cur st /\
  idle (fst (fst (format_cursor ops cfg1 fuel W wr b stack cur st))) /\
  Forall no_break (snd (fst (format_cursor ops cfg1 fuel W wr b stack cur st))).
Proof.
  induction fuel as [|fuel IH]; intros W wr b stack cur st F I; [cbn; auto|].
  destruct cur as [|x rest]; [cbn; auto|]. inversion F as [|? ? NX FR]; subst. destruct stack as [|head below]; [cbn; auto|].
  set (G := fun (stack : list frame) (rest : list (item LI)) (r1 r2 : fstate W * bool) =>
    (let '(st, ok) := r1 in if ok : bool then format_cursor ops cfg1 fuel W wr b stack rest st else (st, rest, false)) =
    (let '(st, ok) := r2 in if ok : bool then format_cursor ops cfg2 fuel W wr b stack rest st else (st, rest, false)) /\
    idle (fst (fst (let '(st, ok) := r1 in if ok : bool then format_cursor ops cfg1 fuel W wr b stack rest st else (st, rest, false)))) /\
    Forall no_break (snd (fst (let '(st, ok) := r1 in if ok : bool then format_cursor ops cfg1 fuel W wr b stack rest st else (st, rest, false))))).
  assert (N : forall stack rest r1 r2, Forall no_break rest -> r1 = r2 -> idle (fst r1) -> G stack rest r1 r2).
  { intros stk rs r1 r2 FS <- J. unfold G. destruct r1 as [s1 [|]]; cbn in J |- *; [apply IH; assumption|auto]. }
  assert (NS : forall stack rest ss, Forall no_break rest -> G stack rest (write_all_strs wr cfg1 ss st) (write_all_strs wr cfg2 ss st)).
  { intros stk rs ss FS. destruct (strs_idle wr ss st I). apply N; assumption. }
  destruct x; try contradiction; cbn [format_cursor].
  - apply N; [exact FR| |]; destruct (in_quote head); [apply strs_idle, I|apply str_idle, I|apply strs_idle, I|apply str_idle, I].
  - apply NS, FR.
  - apply IH; [exact FR|exact I].
  - apply IH; [exact FR|exact I].
  - destruct (negb (in_quote head)); [apply NS, FR|]. match goal with |- context [if negb ?e then _ else _] => destruct (negb e) end; [|cbn; auto].
    assert (NI : idle (@formatter_new str [])) by (split; [left|]; reflexivity).
    destruct (strs_idle string_writer (l_open_quote ops false) (formatter_new []) NI) as [Q J]. rewrite <- Q.
    destruct (write_all_strs string_writer cfg1 (l_open_quote ops false) (formatter_new [])) as [out [|]]; [|cbn; auto]. cbn [fst] in J.
    destruct (IH str string_writer true [mk_frame false false false] rest out FR J) as (Q2 & J2 & F2). rewrite <- Q2.
    destruct (format_cursor ops cfg1 fuel str string_writer true [mk_frame false false false] rest out) as [[out2 rest2] [|]]; [|cbn; auto]. cbn [fst snd] in J2, F2.
    destruct (strs_idle string_writer (l_close_quote ops false) out2 J2) as [Q3 J3]. rewrite <- Q3.
    destruct (write_all_strs string_writer cfg1 (l_close_quote ops false) out2) as [out3 [|]]; [|cbn; auto]. apply NS, F2.
  - destruct b; [cbn; auto|]. destruct (in_quote head); [apply NS, FR|cbn; auto].
  - destruct (in_quote head); [|cbn; auto].
    assert (O : G (mk_frame false false true :: head :: below) rest (write_all_strs wr cfg1 (l_start_string_eval ops) st) (write_all_strs wr cfg2 (l_start_string_eval ops) st)) by apply NS, FR.
    destruct rest as [|[] rest]; try exact O. destruct rest as [|[] rest]; try exact O.
    inversion FR as [|? ? _ FR']; subst. inversion FR'; subst. apply NS. assumption.
  - destruct (end_on_eval head); [apply NS, FR|cbn; auto].
Qed.
Theorem items_config {W} (wr : writer W) its w : Forall no_break its ->
  format_items ops cfg1 wr its (formatter_new w) = format_items ops cfg2 wr its (formatter_new w).
Proof.
  intros F. unfold format_items. destruct (cursor_idle (S (length its)) W wr false [mk_frame false false false] its (formatter_new w) F) as [-> _]; [|reflexivity].
  split; [left|]; reflexivity.
Qed.
End Config.

(** ** Words *)
Definition word_at (row : nat) (w : nat * nat * str) : cursor := let '(a, b, _) := w in mk_cursor (mk_pos row a) (mk_pos row b).
Fixpoint word_gaps (col : nat) (ws : list (nat * nat * str)) : list (bool * pending) :=
  match ws with [] => [] | (a, b, _) :: ws' => (negb (col <? a), mk_pending 0 (col <? a) 0 0) :: word_gaps b ws' end.
Lemma words_gaps row ws : forall col cols, exists w, gaps (map (word_at row) ws) (Some (mk_pos row col, cols)) = Some (word_gaps col ws, w).
Proof.
  induction ws as [|[[a b] w] ws IH]; intros col cols; [eexists; reflexivity|]. cbn [map gaps word_at]. unfold enter, gap, adjacent. cbn [c_start c_end p_line p_col].
  rewrite Nat.eqb_refl. cbn [option_map andb]. destruct (IH b cols) as (w' & ->). eexists. reflexivity.
Qed.
Lemma words_spaced cfg ws : forall col lvl, spaced cfg false lvl (combine (map snd (word_gaps col ws)) (map snd ws)) = map Ch (spaced_words (Some col) ws).
Proof.
  induction ws as [|[[a b] w] ws IH]; intros col lvl; [reflexivity|]. cbn [word_gaps map snd combine spaced p_indent spaced_words].
  rewrite Z.add_0_r, IH, !map_app. f_equal. unfold gap_text. cbn [p_breaks p_space Nat.eqb]. destruct (col <? a); reflexivity.
Qed.
Theorem words_render {LI E} (ops : lang_ops LI) cfg (qs : list (quoted_item LI E)) row ws :
  all_tokens qs = map (fun w => (word_at row w, LText (snd w))) ws -> Forall (fun w => snd w <> []) ws -> forall e,
  exists t, quote qs e = Some (e, t) /\
  outcome (format_items ops cfg string_writer (items t) (formatter_new [])) = (spaced_words None ws, true).
Proof.
  intros T N e.
  assert (G : exists ps w, gaps (map (word_at row) ws) None = Some (ps, w) /\ Forall quiet ps /\
    spaced cfg true 0 (combine (map snd ps) (map snd ws)) = map Ch (spaced_words None ws)).
  { destruct ws as [|[[a b] w] ws]; [exists [], None; repeat split; constructor|]. cbn [map gaps word_at enter c_end c_start p_col].
    destruct (words_gaps row ws b [a]) as (w' & ->). eexists _, _. split; [reflexivity|]. split.
    - constructor; [intros _; reflexivity|]. clear. revert b. induction ws as [|[[a b'] w] ws IH]; intros b; [constructor|]. cbn [word_gaps].
      constructor; [|apply IH]. intros Q. cbn [fst snd] in *. destruct (b <? a); [discriminate|reflexivity].
    - cbn [map snd combine spaced nothing p_indent]. rewrite words_spaced. cbn [spaced_words app]. rewrite map_app.
      unfold gap_text. cbn [p_space p_frozen nothing]. destruct (c_indentation cfg); reflexivity. }
  destruct G as (ps & w & G & QU & SP).
  destruct (plain_quote ops cfg qs (map (word_at row) ws) (map snd ws) ps w) as (r & code & Q & H); try assumption.
  { rewrite T. clear. induction ws as [|x ws IH]; [reflexivity|]. cbn. f_equal. exact IH. }
  { rewrite !map_length. reflexivity. }
  { clear -N. induction N; constructor; assumption. }
  destruct (H e) as (t & X & ns & I1 & I2 & I3). exists t. split.
  - unfold quote. rewrite Q. cbn [option_map snd]. rewrite X. reflexivity.
  - rewrite I1, doc_string by exact I2. rewrite I3, SP. f_equal. clear. induction (spaced_words None ws) as [|c s IH]; [reflexivity|]. cbn. f_equal. exact IH.
Qed.
