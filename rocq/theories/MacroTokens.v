(** * Lemmas: the generated code, token by token. *)
From Verif Require Import Str Tokens SpecTokens TokensRun TokensFacts AlgebraFacts Values ValuesFacts SpecFmt Macro SpecMacro MacroFacts MacroSem.

Section MacroTokens.
Context {LI E : Type}.
Notation stmt := (stmt LI E). Notation quoted := (quoted_item LI E). Notation encoder := (encoder LI E).
Notation cchunk := (cchunk LI E). Notation leaf := (leaf LI E).

Lemma fold_opt_app {A S} (f : A -> S -> option S) a : forall b s,
  fold_opt f (a ++ b) s = bind (fold_opt f a s) (fold_opt f b).
Proof.
  induction a as [|x a IH]; intros b s; [reflexivity|]. cbn [app fold_opt].
  change ((fix go l s := match l with [] => Some s | x :: l' => match f x s with Some s' => go l' s' | None => None end end) (a ++ b)) with (fold_opt f (a ++ b)).
  destruct (f x s) as [s'|]; [|reflexivity]. apply IH.
Qed.
Lemma fold_opt_cons {A S} (f : A -> S -> option S) x l s : fold_opt f (x :: l) s = bind (f x s) (fold_opt f l).
Proof. reflexivity. Qed.
Lemma bind_assoc {A B C} (o : option A) (f : A -> option B) (g : B -> option C) :
  bind (bind o f) g = bind o (fun x => bind (f x) g).
Proof. destruct o; reflexivity. Qed.

(** ** Tokens *)
Definition opaque (x : quoted) : bool :=
  match x with QText _ _ | QDollar _ | QLiteral _ _ | QGroup _ _ _ => false | _ => true end.
Definition tok_ok (t : cursor * leaf) : Prop :=
  match snd t with LText _ => True | LOther x => opaque x = true /\ fst t = cursor_of x end.
Definition enc_leaf (t : cursor * leaf) (s : encoder) : option encoder :=
  match snd t with
  | LText u => bind (step (fst t) s) (fun s => Some (buffer_push u s))
  | LOther x => encode x s
  end.
Lemma all_cons (x : quoted) qs : all_tokens (x :: qs) = tokens_of x ++ all_tokens qs.
Proof. reflexivity. Qed.
Lemma encode_tokens : (forall (x : quoted) (s : encoder), encode x s = fold_opt enc_leaf (tokens_of x) s) /\ (forall x : string_item LI E, True).
Proof.
  assert (ONE : forall c (x : quoted) s, encode x s = fold_opt enc_leaf [(c, LOther x)] s).
  { intros c x s. cbn [fold_opt enc_leaf snd]. destruct (encode x s); reflexivity. }
  assert (TXT : forall c u (s : encoder), bind (step c s) (fun s => Some (buffer_push u s)) = fold_opt enc_leaf [(c, LText u)] s).
  { intros c u s. cbn [fold_opt enc_leaf snd fst]. destruct (step c s); reflexivity. }
  apply quoted_string_ind; try (intros; exact I); try (intros; apply ONE); try (intros; apply TXT).
  intros c d qs F s. cbn [encode tokens_of]. rewrite fold_opt_cons. cbn [enc_leaf fst snd]. rewrite bind_assoc.
  change opener_at with first_character. change closer_at with last_character. change opener with open_char. change closer with close_char.
  destruct (step (first_character c) s) as [s1|]; [|reflexivity]. cbn [bind]. rewrite fold_opt_app.
  assert (H : forall s', fold_opt encode qs s' = fold_opt enc_leaf (flat_map tokens_of qs) s').
  { clear -F. induction F as [|x qs Hx _ IH]; intros s'; [reflexivity|]. cbn [flat_map]. rewrite fold_opt_cons, fold_opt_app, Hx.
    destruct (fold_opt enc_leaf (tokens_of x) s'); [apply IH|reflexivity]. }
  rewrite H. destruct (fold_opt enc_leaf _ _) as [s2|]; [|reflexivity]. cbn [bind fold_opt enc_leaf fst snd].
  destruct (step (last_character c) s2); reflexivity.
Qed.
Lemma fold_tokens qs (s : encoder) : fold_opt encode qs s = fold_opt enc_leaf (all_tokens qs) s.
Proof.
  revert s. induction qs as [|x qs IH]; intros s; [reflexivity|]. rewrite all_cons, fold_opt_cons, fold_opt_app.
  rewrite (proj1 encode_tokens). destruct (fold_opt enc_leaf (tokens_of x) s); [apply IH|reflexivity].
Qed.
Lemma tokens_ok : (forall x : quoted, Forall tok_ok (tokens_of x)) /\ (forall x : string_item LI E, True).
Proof.
  apply quoted_string_ind; try (intros; exact I); try (intros; repeat constructor; fail).
  intros c d qs F. cbn [tokens_of]. constructor; [exact I|]. apply Forall_app. split; [|repeat constructor].
  induction F as [|x qs Hx _ IH]; [constructor|]. cbn [flat_map]. apply Forall_app. split; auto.
Qed.
Lemma all_tokens_ok (qs : list quoted) : Forall tok_ok (all_tokens qs).
Proof. unfold all_tokens. induction qs as [|x qs IH]; [constructor|]. cbn. apply Forall_app. split; [apply tokens_ok|auto]. Qed.

(** ** Elements by themselves *)
Lemma opaque_form (x : quoted) c g b1 b2 :
  (forall s, encode x s = bind (step c (require b1 s)) (fun s => Some (emit g (flush (require b2 s))))) ->
  quote_code [x] = Some (b1 || b2, g).
Proof.
  intros H. unfold quote_code, block_with. cbn [fold_opt option_map]. rewrite H. cbn. rewrite app_nil_r. reflexivity.
Qed.
Lemma require_twice a (s : encoder) : require false (require a s) = require a s.
Proof. apply require_false. Qed.
Lemma opaque_code (x : quoted) : opaque x = true ->
  match x with
  | QEffect c f => forall s, encode x s = bind (step c s) (fun s => Some (emit [SEffect f] s))
  | _ =>
      match quote_code [x] with
      | None => forall s, encode x s = None
      | Some (r, code) => exists b1 b2, r = b1 || b2 /\ forall s,
          encode x s = bind (step (cursor_of x) (require b1 s)) (fun s => Some (emit code (flush (require b2 s))))
      end
  end.
Proof.
  assert (K : forall (x : quoted) g b1 b2,
    (forall s, encode x s = bind (step (cursor_of x) (require b1 s)) (fun s => Some (emit g (flush (require b2 s))))) ->
    match quote_code [x] with
      | None => forall s, encode x s = None
      | Some (r, code) => exists b1 b2, r = b1 || b2 /\ forall s,
          encode x s = bind (step (cursor_of x) (require b1 s)) (fun s => Some (emit code (flush (require b2 s))))
      end).
  { intros y g b1 b2 H. rewrite (opaque_form y (cursor_of y) g b1 b2 H). exists b1, b2. auto. }
  assert (N : forall (x : quoted), (forall s, encode x s = None) ->
    match quote_code [x] with
      | None => forall s, encode x s = None
      | Some (r, code) => exists b1 b2, r = b1 || b2 /\ forall s,
          encode x s = bind (step (cursor_of x) (require b1 s)) (fun s => Some (emit code (flush (require b2 s))))
      end).
  { intros y H. assert (Q : quote_code [y] = None).
    { unfold quote_code, block_with. cbn [fold_opt option_map]. rewrite H. reflexivity. }
    rewrite Q. exact H. }
  assert (RF : forall (o : option encoder) g, bind o (fun s => Some (emit g (flush s))) = bind o (fun s => Some (emit g (flush (require false s))))).
  { intros [s|] g; [|reflexivity]. cbn [bind]. rewrite require_false. reflexivity. }
  destruct x; intros O; try discriminate O.
  - eapply (K _ _ false false). intros s'. cbn [encode cursor_of]. rewrite require_false, <- RF. reflexivity.
  - destruct (bind (fold_opt sencode ps (sencoder_new (inner_start paren))) (sflush (Some (inner_end paren)) None)) as [r|] eqn:R.
    + eapply (K _ _ (s_req r) (s_has_eval r)). intros s'. rewrite encode_string, R. reflexivity.
    + apply N. intros s'. rewrite encode_string, R. reflexivity.
  - eapply (K _ _ false false). intros s'. cbn [encode cursor_of]. rewrite require_false, <- RF. reflexivity.
  - eapply (K _ _ false false). intros s'. cbn [encode cursor_of]. rewrite require_false, <- RF. reflexivity.
  - eapply (K _ _ false false). intros s'. cbn [encode cursor_of]. rewrite require_false, <- RF. reflexivity.
  - reflexivity.
  - destruct (match join with
            | Some (paren, js) =>
                bind (block_with encode (Some paren) js) (fun r => Some (Some r))
            | None => Some None
            end) as [j|] eqn:J; [|apply N; intros s'; cbn [encode]; rewrite J; reflexivity].
    destruct (block_with encode None body) as [b|] eqn:B; [|apply N; intros s'; cbn [encode]; rewrite J; cbn [bind]; rewrite B; reflexivity].
    eapply (K _ _ _ false). intros s'. cbn [encode]. rewrite J. cbn [bind]. rewrite B. cbn [bind]. rewrite RF. reflexivity.
  - destruct (block_with encode None a) as [ra|] eqn:A; [|apply N; intros s'; cbn [encode]; rewrite A; reflexivity].
    destruct (match b with
            | Some qs => bind (block_with encode None qs) (fun r => Some (Some r))
            | None => Some None
            end) as [rb|] eqn:B; [|apply N; intros s'; cbn [encode]; rewrite A; cbn [bind]; rewrite B; reflexivity].
    eapply (K _ _ _ false). intros s'. cbn [encode]. rewrite A. cbn [bind]. rewrite B. cbn [bind]. rewrite RF. reflexivity.
  - destruct (fold_opt (fun arm acc =>
              let '(paren, qs) := arm in
              bind (block_with encode paren qs) (fun r =>
                Some (fst acc || fst r, snd acc ++ [snd r]))) arms (false, [])) as [r|] eqn:R; [|apply N; intros s'; cbn [encode]; rewrite R; reflexivity].
    eapply (K _ _ _ false). intros s'. cbn [encode]. rewrite R. cbn [bind]. rewrite RF. reflexivity.
  - eapply (K _ _ false false). intros s'. cbn [encode cursor_of]. rewrite require_false, <- RF. reflexivity.
Qed.

(** ** Separations *)
Fixpoint gaps (cs : list cursor) (w : place) : option (list (bool * pending) * place) :=
  match cs with
  | [] => Some ([], w)
  | c :: cs' =>
      match enter c w with
      | None => None
      | Some (p, w1) =>
          match gaps cs' w1 with
          | None => None
          | Some (ps, w2) => Some ((adjacent c w, p) :: ps, w2)
          end
      end
  end.
Definition sep_ok (ap : bool * pending) (sep : option (list act)) : Prop :=
  if fst ap then sep = None else exists h, sep = Some h /\ amounts h (snd ap).
Definition acceptable (l : leaf) : Prop := exists k : cchunk, leaf_code l k.

Lemma leaf_step c l (s : encoder) w : tok_ok (c, l) -> at_place s w ->
  match enter c w with
  | None => enc_leaf (c, l) s = None
  | Some (p, w') =>
      match enc_leaf (c, l) s with
      | None => ~ acceptable l
      | Some s' => exists sep k, at_place s' w' /\ e_span_end s' = e_span_end s /\ sep_ok (adjacent c w, p) sep /\
          leaf_code l k /\ code_of s' = chunks_run (interleave [sep] [k]) (code_of s)
      end
  end.
Proof.
  intros T AT.
  assert (G : forall b p w', enter c w = Some (p, w') -> exists s1 sep, step c (require b s) = Some s1 /\ at_place s1 w' /\
     e_span_end s1 = e_span_end s /\ sep_ok (adjacent c w, p) sep /\
     code_of s1 = chunks_run (match sep with Some h => [CCode (map act_stmt h)] | None => [] end) (code_of s)).
  { intros b p w' EN. assert (AT' : at_place (require b s) w) by (apply at_require; auto).
    pose proof (step_enter c (require b s) w AT') as ST. rewrite EN in ST.
    destruct ST as (s1 & g & ST & A1 & SE & _ & (_ & h & -> & AM) & CC). unfold gap_chunk in CC. unfold sep_ok. cbn [fst snd].
    destruct (adjacent c w).
    - exists s1, None. repeat split; auto.
    - exists s1, (Some h). repeat split; auto. exists h. auto. }
  assert (NG : enter c w = None -> forall b, step c (require b s) = None).
  { intros EN b. assert (AT' : at_place (require b s) w) by (apply at_require; auto).
    pose proof (step_enter c (require b s) w AT') as ST. rewrite EN in ST. exact ST. }
  assert (EM : forall sep k, chunks_run (interleave [sep] [k]) (code_of s) =
    chunk_step (chunks_run (match sep with Some h => [CCode (map act_stmt h)] | None => [] end) (code_of s)) k).
  { intros sep k. cbn [interleave]. rewrite chunks_run_app. reflexivity. }
  destruct l as [u|x]; cbn [enc_leaf fst snd].
  - destruct (enter c w) as [[p w']|] eqn:EN.
    + destruct (G false p w' eq_refl) as (s1 & sep & ST & A1 & SE & SO & CC). rewrite require_false in ST. rewrite ST. cbn [bind].
      exists sep, (CText u). split; [apply at_push; auto|]. split; [exact SE|]. split; [exact SO|]. split; [reflexivity|].
      rewrite EM, <- CC. reflexivity.
    + pose proof (NG eq_refl false) as S. rewrite require_false in S. rewrite S. reflexivity.
  - destruct T as [O C]. cbn [fst] in C. pose proof (opaque_code x O) as OC.
    assert (MAIN : match x with QEffect _ _ => False | _ => True end ->
       match quote_code [x] with
      | None => forall s, encode x s = None
      | Some (r, code) => exists b1 b2, r = b1 || b2 /\ forall s,
          encode x s = bind (step (cursor_of x) (require b1 s)) (fun s => Some (emit code (flush (require b2 s))))
      end ->
      (forall k, leaf_code (LOther x) k <-> exists r code, quote_code [x] = Some (r, code) /\ k = CCode code) ->
      match enter c w with
      | Some (p, w') => match encode x s with
         | None => ~ acceptable (LOther x)
         | Some s' => exists sep k, at_place s' w' /\ e_span_end s' = e_span_end s /\ sep_ok (adjacent c w, p) sep /\
             leaf_code (LOther x) k /\ code_of s' = chunks_run (interleave [sep] [k]) (code_of s)
         end
      | None => encode x s = None
      end).
    { intros NE Q LC. destruct (quote_code [x]) as [[r code]|] eqn:QC.
      - destruct Q as (b1 & b2 & -> & Q). rewrite Q. rewrite <- C. destruct (enter c w) as [[p w']|] eqn:EN.
        + destruct (G b1 p w' eq_refl) as (s1 & sep & ST & A1 & SE & SO & CC). rewrite ST. cbn [bind].
          exists sep, (CCode code). split; [apply at_emit, at_flush, at_require; auto|]. split; [etransitivity; [apply end_flush|exact SE]|].
          split; [exact SO|]. split; [apply LC; eauto|]. rewrite EM, <- CC, flush_emit. reflexivity.
        + rewrite (NG eq_refl b1). reflexivity.
      - rewrite Q. destruct (enter c w) as [[p w']|]; [|reflexivity]. intros [k K]. apply LC in K as (? & ? & K & _). congruence. }
    destruct x; try discriminate O; try (apply MAIN; [exact I|exact OC|intros; reflexivity]).
    rewrite OC. cbn [cursor_of] in C. subst c0. destruct (enter c w) as [[p w']|] eqn:EN.
    + destruct (G false p w' eq_refl) as (s1 & sep & ST & A1 & SE & SO & CC). rewrite require_false in ST. rewrite ST. cbn [bind].
      exists sep, (CEffect f). split; [apply at_emit; auto|]. split; [exact SE|]. split; [exact SO|]. split; [reflexivity|].
      rewrite EM, <- CC. reflexivity.
    + pose proof (NG eq_refl false) as S. rewrite require_false in S. rewrite S. reflexivity.
Qed.

Lemma interleave_cons sep k seps ks : interleave (sep :: seps) (k :: ks) = interleave [sep] [k] ++ @interleave LI E seps ks.
Proof. cbn [interleave]. rewrite <- app_assoc. reflexivity. Qed.
Lemma tokens_step ts : Forall tok_ok ts -> forall (s : encoder) w, at_place s w ->
  match fold_opt enc_leaf ts s with
  | Some s' => exists ps w' seps ks, gaps (map fst ts) w = Some (ps, w') /\ at_place s' w' /\ e_span_end s' = e_span_end s /\
      Forall2 sep_ok ps seps /\ Forall2 leaf_code (map snd ts) ks /\
      code_of s' = chunks_run (interleave seps ks) (code_of s)
  | None => gaps (map fst ts) w = None \/ Exists (fun l => ~ acceptable l) (map snd ts)
  end.
Proof.
  induction 1 as [|[c l] ts T F IH]; intros s w AT.
  - cbn. exists [], w, [], []. repeat split; auto.
  - rewrite fold_opt_cons. cbn [map fst snd gaps]. pose proof (leaf_step c l s w T AT) as L.
    destruct (enter c w) as [[p w1]|].
    + destruct (enc_leaf (c, l) s) as [s1|]; cbn [bind].
      * destruct L as (sep & k & A1 & SE & SO & LC & CC). specialize (IH s1 w1 A1).
        destruct (fold_opt enc_leaf ts s1) as [s2|].
        -- destruct IH as (ps & w2 & seps & ks & G & A2 & SE2 & F1 & F2 & C2). rewrite G.
           exists ((adjacent c w, p) :: ps), w2, (sep :: seps), (k :: ks). split; auto. split; auto. split; [congruence|].
           split; [constructor; auto|]. split; [constructor; auto|]. rewrite interleave_cons, chunks_run_app, <- CC. exact C2.
        -- destruct IH as [->|X]; [left; reflexivity|right; right; exact X].
      * right. left. exact L.
    + rewrite L. cbn [bind]. left. reflexivity.
Qed.

Lemma map_const_repeat {A B} (b : B) (l : list A) : map (fun _ => b) l = repeat b (length l).
Proof. induction l; cbn; congruence. Qed.
Lemma forall2_length {A B} (R : A -> B -> Prop) a b : Forall2 R a b -> length a = length b.
Proof. induction 1; cbn; auto. Qed.
Theorem code_by_tokens (qs : list quoted) :
  match quote_code qs with
  | Some (r, code) => exists ps w seps, gaps (map fst (all_tokens qs)) None = Some (ps, w) /\
      Forall2 sep_ok ps seps /\ assembled qs seps (depth w) code
  | None => gaps (map fst (all_tokens qs)) None = None \/ Exists (fun l => ~ acceptable l) (map snd (all_tokens qs))
  end.
Proof.
  unfold quote_code, block_with. cbn [option_map].
  assert (AT : at_place (@encoder_new LI E None None) None) by (cbn; auto).
  pose proof (tokens_step (all_tokens qs) (all_tokens_ok qs) _ _ AT) as H. rewrite <- fold_tokens in H.
  destruct (fold_opt encode qs (encoder_new None None)) as [s|]; cbn [bind]; [|exact H].
  destruct H as (ps & w & seps & ks & G & A & SE & F1 & F2 & CC). unfold finalize. rewrite SE. cbn [encoder_new e_span_end bind].
  exists ps, w, seps. split; auto. split; auto. exists ks. split; auto. split.
  - apply forall2_length in F1, F2. rewrite map_length in F2. rewrite <- F1, <- F2.
    assert (L : forall cs w ps w', gaps cs w = Some (ps, w') -> length ps = length cs).
    { clear. induction cs as [|c cs IH]; intros w ps w' H; cbn in H; [injection H as <- <-; reflexivity|].
      destruct (enter c w) as [[p w1]|]; [|discriminate]. destruct (gaps cs w1) as [[ps2 w2]|] eqn:Q; [|discriminate]. injection H as <- <-.
      cbn. f_equal. eauto. }
    apply L in G. rewrite map_length in G. exact G.
  - split.
    + clear -F1. induction F1 as [|[a p] sep ps seps H _ IH]; constructor; auto. unfold sep_ok in H. cbn [fst snd] in H.
      destruct a; [subst; exact I|]. destruct H as (h & -> & R & _). exact R.
    + pose proof (f_equal fst (flush_code s)) as FC. cbn [code_of fst] in FC. rewrite FC.
      pose proof (chunks_flush _ _ _ _ CC) as CO. cbn [code_of fst snd encoder_new e_output e_buffer app] in CO. rewrite CO.
      f_equal. rewrite map_const_repeat. f_equal. destruct (flush_rest s) as (_ & _ & -> & _).
      destruct w as [[frm cols]|]; cbn.
      * destruct A as (c & -> & _). cbn. lia.
      * destruct A as (_ & _ & _ & ->). reflexivity.
Qed.
End MacroTokens.
