(** * Lemmas: quotes that are left early. *)
From Verif Require Import Str Tokens SpecTokens TokensRun TokensFacts AlgebraFacts Values ValuesFacts SpecFmt Macro SpecMacro SpecQuote
  MacroFacts MacroSem MacroTokens MacroControl Exit SpecExit.

Section Facts.
Context {LI E : Type} (gone : E -> bool).
Notation stmt := (stmt LI E). Notation quoted := (quoted_item LI E). Notation encoder := (encoder LI E).
Notation cchunk := (cchunk LI E).
Notation until := (exec_until gone). Notation untils := (execs_until gone).

(** ** Induction on statements *)
Section Ind.
Variable P : stmt -> Prop.
Hypothesis H0 : forall c, match c with SFor _ _ | SForJoin _ _ _ | SIf _ _ _ | SMatch _ _ => True | _ => P c end.
Hypothesis HFor : forall it body, Forall P body -> P (SFor it body).
Hypothesis HJoin : forall it body join, Forall P body -> Forall P join -> P (SForJoin it body join).
Hypothesis HIf : forall c a b, Forall P a -> match b with Some b => Forall P b | None => True end -> P (SIf c a b).
Hypothesis HMatch : forall s arms, Forall (Forall P) arms -> P (SMatch s arms).
Fixpoint stmt_ind' (c : stmt) : P c :=
  let all := fix all (l : list stmt) : Forall P l :=
    match l with [] => Forall_nil _ | x :: l' => Forall_cons _ (stmt_ind' x) (all l') end in
  match c as c return P c with
  | SStatic s => H0 (SStatic s)
  | SItem x => H0 (SItem x)
  | SAppend v => H0 (SAppend v)
  | SSpace => H0 SSpace
  | SPush => H0 SPush
  | SLine => H0 SLine
  | SIndent => H0 SIndent
  | SUnindent => H0 SUnindent
  | SCode v => H0 (SCode v)
  | SEffect f => H0 (SEffect f)
  | SFor it body => HFor it body (all body)
  | SForJoin it body join => HJoin it body join (all body) (all join)
  | SIf c a b => HIf c a b (all a) (match b with Some b => all b | None => I end)
  | SMatch s arms => HMatch s arms
      ((fix alla (l : list (list stmt)) : Forall (Forall P) l :=
         match l with [] => Forall_nil _ | a :: l' => Forall_cons _ (all a) (alla l') end) arms)
  | SLet f => H0 (SLet f)
  end.
End Ind.

(** ** Sequences *)
Lemma until_cons {A} (f : A -> E * tokens LI -> E * tokens LI) x l st :
  fold_until gone f (x :: l) st = if gone (fst (f x st)) then f x st else fold_until gone f l (f x st).
Proof. reflexivity. Qed.
Lemma until_app {A} (f : A -> E * tokens LI -> E * tokens LI) a : forall b st, gone (fst st) = false ->
  fold_until gone f (a ++ b) st =
  if gone (fst (fold_until gone f a st)) then fold_until gone f a st else fold_until gone f b (fold_until gone f a st).
Proof.
  induction a as [|x a IH]; intros b st G; cbn [app].
  - cbn [fold_until]. rewrite G. reflexivity.
  - rewrite !until_cons. destruct (gone (fst (f x st))) eqn:G1; [rewrite G1; reflexivity|]. apply IH; auto.
Qed.
Lemma state_cons {A} (f : A -> E * tokens LI -> E * tokens LI) x l st : fold_state f (x :: l) st = fold_state f l (f x st).
Proof. reflexivity. Qed.
Lemma pick_until (arms : list (list stmt)) : forall i st,
  (fix pick (arms : list (list stmt)) (i : nat) : E * tokens LI :=
         match arms, i with
         | a :: _, O => fold_until gone until a st
         | _ :: arms', S i' => pick arms' i'
         | [], _ => st
         end) arms i = match nth_error arms i with Some a => untils a st | None => st end.
Proof. induction arms as [|a arms IH]; intros [|i] st; try reflexivity. apply IH. Qed.
Lemma pick_exec (arms : list (list stmt)) : forall i (st : E * tokens LI),
  (fix pick (arms : list (list stmt)) (i : nat) : E * tokens LI :=
         match arms, i with
         | a :: _, O => fold_state exec a st
         | _ :: arms', S i' => pick arms' i'
         | [], _ => st
         end) arms i = match nth_error arms i with Some a => execs a st | None => st end.
Proof. induction arms as [|a arms IH]; intros [|i] st; try reflexivity. apply IH. Qed.

(** ** Not left: nothing changes *)
Definition faithful (c : stmt) : Prop := forall st, gone (fst (until c st)) = false -> until c st = exec c st.
Lemma faithful_fold {A} (f g : A -> E * tokens LI -> E * tokens LI) l :
  Forall (fun x => forall st, gone (fst (f x st)) = false -> f x st = g x st) l ->
  forall st, gone (fst (fold_until gone f l st)) = false -> fold_until gone f l st = fold_state g l st.
Proof.
  induction 1 as [|x l H _ IH]; intros st G; [reflexivity|]. rewrite until_cons, state_cons in *.
  destruct (gone (fst (f x st))) eqn:G1; [congruence|]. rewrite <- H by auto. apply IH. exact G.
Qed.
Lemma unless_inv (st : E * tokens LI) f : gone (fst (unless_gone gone st f)) = false ->
  gone (fst st) = false /\ gone (fst (f st)) = false /\ unless_gone gone st f = f st.
Proof. unfold unless_gone. destruct (gone (fst st)) eqn:G; [congruence|auto]. Qed.
Lemma join_until_cons body join b bs st : join_until gone body join (b :: bs) st =
  unless_gone gone (b (fst st), @snd E (tokens LI) st) (fun st => unless_gone gone (body st) (fun st =>
    unless_gone gone (match bs with [] => st | _ => join st end) (join_until gone body join bs))).
Proof. reflexivity. Qed.
Lemma join_loop_cons body join b bs st : join_loop body join (b :: bs) st =
  join_loop body join bs (match bs with [] => body (b (fst st), snd st) | _ => join (body (b (fst st), @snd E (tokens LI) st)) end).
Proof. reflexivity. Qed.
Lemma all_faithful : forall c, faithful c.
Proof.
  assert (FF : forall l, Forall faithful l -> forall st, gone (fst (untils l st)) = false -> untils l st = execs l st).
  { intros l F. apply faithful_fold. exact F. }
  apply stmt_ind'.
  - intros c. destruct c; auto; intros st; cbn [exec_until exec]; try reflexivity.
    destruct (v (fst st)) as [w e]. intros G. apply unless_inv in G as (_ & _ & ->). reflexivity.
  - intros it body F st. cbn [exec_until exec]. destruct (it (fst st)) as [bs e]. intros G. apply unless_inv in G as (_ & G & ->).
    refine (faithful_fold _ _ _ _ _ G). apply Forall_forall. intros b _ st1 G1. apply unless_inv in G1 as (_ & G1 & ->).
    apply (FF body F). exact G1.
  - intros it body join FB FJ st. cbn [exec_until exec]. destruct (it (fst st)) as [bs e]. intros G. apply unless_inv in G as (_ & G & ->).
    revert G. generalize (e, snd st). induction bs as [|b bs IH]; intros st1 G; [reflexivity|].
    rewrite join_until_cons in *. rewrite join_loop_cons.
    apply unless_inv in G as (_ & G & ->). apply unless_inv in G as (G1 & G & ->). apply unless_inv in G as (G2 & G & ->).
    rewrite IH by exact G. f_equal.
    assert (X : fold_until gone until body (b (fst st1), snd st1) = fold_state exec body (b (fst st1), snd st1)) by (apply (FF body FB); exact G1).
    rewrite X in *. destruct bs; [reflexivity|]. apply (FF join FJ). exact G2.
  - intros cond a b FA FB st. cbn [exec_until exec]. destruct (cond (fst st)) as [yes e]. intros G. apply unless_inv in G as (_ & G & ->).
    destruct yes; [apply (FF a FA); exact G|]. destruct b as [b|]; [|reflexivity]. apply (FF b FB). exact G.
  - intros sel arms F st. cbn [exec_until exec]. destruct (sel (fst st)) as [i e]. intros G. apply unless_inv in G as (_ & G & ->).
    rewrite pick_until in *. rewrite pick_exec. destruct (nth_error arms i) as [a|] eqn:N; [|reflexivity].
    rewrite Forall_forall in F. apply (FF a); [|exact G]. apply F. eapply nth_error_In; eauto.
Qed.
Lemma untils_exec (l : list stmt) st : gone (fst (untils l st)) = false -> untils l st = execs (LI:=LI) l st.
Proof. intros G. refine (faithful_fold _ _ _ _ _ G). apply Forall_forall. intros c _. exact (all_faithful c). Qed.

(** ** Left: what has been supplied stays *)
Definition cuts (u x : E * tokens LI -> E * tokens LI) : Prop :=
  forall e, gone e = false -> exists its1 its2 e1 e2, forall t, u (e, t) = (e1, extend its1 t) /\
    x (e, t) = (e2, extend (its1 ++ its2) t) /\ (gone e1 = false -> e1 = e2 /\ its2 = []).
(** Anything continues by supplying items. *)
Definition goes (x : E * tokens LI -> E * tokens LI) : Prop := forall e, exists its e', forall t, x (e, t) = (e', extend its t).
Lemma goes_id : goes (fun st => st).
Proof. intros e. exists [], e. reflexivity. Qed.
Lemma goes_comp f g : goes f -> goes g -> goes (fun st => g (f st)).
Proof.
  intros F G e. destruct (F e) as (i1 & e1 & H1). destruct (G e1) as (i2 & e2 & H2). exists (i1 ++ i2), e2.
  intros t. rewrite H1, H2, extend_app. reflexivity.
Qed.
Lemma goes_fold {A} (f : A -> E * tokens LI -> E * tokens LI) l : Forall (fun x => goes (f x)) l -> goes (fold_state f l).
Proof. induction 1 as [|x l H _ IH]; [exact goes_id|]. exact (goes_comp _ _ H IH). Qed.
Lemma goes_ext f g : (forall st, f st = g st) -> goes f -> goes g.
Proof. intros X F e. destruct (F e) as (i & e' & H). exists i, e'. intros t. rewrite <- X. apply H. Qed.
Lemma goes_with (f : E -> E) g : goes g -> goes (fun st => g (f (fst st), snd st)).
Proof. intros G e. exact (G (f e)). Qed.
Lemma goes_join body join bs : goes body -> goes join -> goes (join_loop body join bs).
Proof.
  intros B J. induction bs as [|b bs IH]; [exact goes_id|].
  refine (goes_ext _ _ (fun st => eq_sym (join_loop_cons body join b bs st)) _).
  destruct bs.
  - refine (goes_comp (fun st => body (b (fst st), snd st)) _ _ IH). apply goes_with. exact B.
  - refine (goes_comp (fun st => join (body (b (fst st), snd st))) _ _ IH). refine (goes_comp (fun st => body (b (fst st), snd st)) _ _ J). apply goes_with. exact B.
Qed.
Lemma all_goes : forall c : stmt, goes (exec c).
Proof.
  apply stmt_ind'.
  - intros c. destruct c; auto; intros e0; cbn [exec fst snd].
    + exists [Literal (Static s)], e0. reflexivity.
    + exists [x], e0. reflexivity.
    + destruct (v e0) as [w e1]. exists (parts w), e1. intros t. unfold append. rewrite format_into_extend. reflexivity.
    + exists [Space], e0. reflexivity.
    + exists [Push], e0. reflexivity.
    + exists [Line], e0. reflexivity.
    + exists [Indentation 1], e0. reflexivity.
    + exists [Indentation (-1)], e0. reflexivity.
    + destruct (code e0) as [w e1]. exists (flat_map call_parts w), e1. intros t. rewrite run_extend. reflexivity.
    + exists [], (f e0). reflexivity.
    + exists [], (f e0). reflexivity.
  - intros it body F e. cbn [exec fst snd]. destruct (it e) as [bs e1].
    apply (goes_fold (fun b st => fold_state exec body (b (fst st), snd st)) bs). apply Forall_forall. intros b _.
    apply goes_with, goes_fold, F.
  - intros it body join FB FJ e. cbn [exec fst snd]. destruct (it e) as [bs e1].
    apply goes_join; apply goes_fold; auto.
  - intros c a b FA FB e. cbn [exec fst snd]. destruct (c e) as [yes e1]. destruct yes; [apply goes_fold, FA|].
    destruct b; [apply goes_fold, FB|]. apply goes_id.
  - intros sel arms F e. cbn [exec fst snd]. destruct (sel e) as [i e1].
    assert (G : goes (fun st : E * tokens LI => match nth_error arms i with Some a => execs a st | None => st end)).
    { destruct (nth_error arms i) as [a|] eqn:N; [|exact goes_id]. apply goes_fold. rewrite Forall_forall in F. apply F. eapply nth_error_In; eauto. }
    destruct (G e1) as (its & e' & H). exists its, e'. intros t. rewrite pick_exec. apply H.
Qed.
(** The first part decides. *)
Lemma cuts_ext u x u' x' : (forall st, gone (fst st) = false -> u st = u' st) -> (forall st, x st = x' st) -> cuts u x -> cuts u' x'.
Proof.
  intros U X C e G. destruct (C e G) as (i1 & i2 & e1 & e2 & H). exists i1, i2, e1, e2. intros t. rewrite <- U, <- X by exact G. apply H.
Qed.
Lemma cuts_id : cuts (fun st => st) (fun st => st).
Proof. intros e G. exists [], [], e, e. intros t. auto. Qed.
Lemma cuts_comp u x u' x' : cuts u x -> cuts u' x' -> goes x' -> cuts (fun st => unless_gone gone (u st) u') (fun st => x' (x st)).
Proof.
  intros C C' W e G. destruct (C e G) as (i1 & i2 & e1 & e2 & H). destruct (gone e1) eqn:G1.
  - destruct (W e2) as (i3 & e3 & H3). exists i1, (i2 ++ i3), e1, e3. intros t. destruct (H t) as (Hu & Hx & _).
    unfold unless_gone. rewrite Hu, Hx. cbn [fst]. rewrite G1, H3, app_assoc, (extend_app (i1 ++ i2)). split; [reflexivity|]. split; [reflexivity|congruence].
  - destruct (C' e1 G1) as (j1 & j2 & e3 & e4 & H'). exists (i1 ++ j1), j2, e3, e4. intros t. destruct (H t) as (Hu & Hx & Q).
    destruct (Q eq_refl) as [<- ->]. rewrite app_nil_r in Hx. unfold unless_gone. rewrite Hu, Hx. cbn [fst]. rewrite G1.
    destruct (H' (extend i1 t)) as (Hu' & Hx' & Q'). rewrite Hu', Hx', <- !app_assoc, !extend_app. auto.
Qed.
Lemma cuts_fold {A} (f g : A -> E * tokens LI -> E * tokens LI) l : Forall (fun x => cuts (f x) (g x) /\ goes (g x)) l ->
  cuts (fold_until gone f l) (fold_state g l).
Proof.
  induction 1 as [|x l [C W] F IH]; [exact cuts_id|].
  refine (cuts_ext _ _ _ _ (fun st _ => eq_refl) (fun st => eq_refl) (cuts_comp (f x) (g x) (fold_until gone f l) (fold_state g l) C IH _)).
  apply goes_fold. eapply Forall_impl; [|exact F]. cbn. tauto.
Qed.
Lemma cuts_sets f : cuts (fun st => (f (fst st), snd st)) (fun st => (f (fst st), snd st)).
Proof. intros e G. exists [], [], (f e), (f e). intros t. auto. Qed.
Lemma goes_sets (f : E -> E) : goes (fun st => (f (fst st), snd st)).
Proof. intros e. exists [], (f e). reflexivity. Qed.
Lemma cuts_from u x (f : E -> E) : cuts u x -> goes x -> cuts (fun st => unless_gone gone (f (fst st), snd st) u) (fun st => x (f (fst st), snd st)).
Proof. intros C W. exact (cuts_comp _ _ u x (cuts_sets f) C W). Qed.
Lemma cuts_join u x uj xj bs : cuts u x -> goes x -> cuts uj xj -> goes xj -> cuts (join_until gone u uj bs) (join_loop x xj bs).
Proof.
  intros C W CJ WJ. induction bs as [|b bs IH]; [exact cuts_id|].
  assert (WJL : goes (join_loop x xj bs)) by (apply goes_join; auto).
  refine (cuts_ext _ _ _ _ (fun st _ => eq_sym (join_until_cons u uj b bs st)) (fun st => eq_sym (join_loop_cons x xj b bs st)) _).
  destruct bs as [|b2 bs].
  - refine (cuts_from (fun st => unless_gone gone (u st) (fun st => unless_gone gone st (join_until gone u uj []))) (fun st => join_loop x xj [] (x st)) b _ _).
    + refine (cuts_comp u x _ _ C _ WJL). apply (cuts_comp _ _ _ _ cuts_id IH WJL).
    + apply goes_comp; auto.
  - refine (cuts_from (fun st => unless_gone gone (u st) (fun st => unless_gone gone (uj st) (join_until gone u uj (b2 :: bs)))) (fun st => join_loop x xj (b2 :: bs) (xj (x st))) b _ _).
    + refine (cuts_comp u x _ (fun st => join_loop x xj (b2 :: bs) (xj st)) C _ _); [|apply goes_comp; auto].
      apply (cuts_comp _ _ _ _ CJ IH WJL).
    + apply (goes_comp x (fun st => join_loop x xj (b2 :: bs) (xj st))); auto. apply goes_comp; auto.
Qed.
Lemma all_cuts : forall c, cuts (until c) (exec c).
Proof.
  assert (FF : forall l, Forall (fun c => cuts (until c) (exec c)) l -> cuts (untils l) (execs l) /\ goes (execs l)).
  { intros l F. split; [|apply goes_fold, Forall_forall; intros; apply all_goes]. apply cuts_fold. eapply Forall_impl; [|exact F]. intros c C. split; [exact C|apply all_goes]. }
  apply stmt_ind'.
  - intros c. pose proof (all_goes c) as W. destruct c; auto;
    try (intros e0 G; cbn [exec_until]; destruct (W e0) as (its & e' & H); exists its, [], e', e'; intros t; rewrite app_nil_r; specialize (H t); cbn [exec fst snd] in *; rewrite H; auto; fail).
    intros e0 G. cbn [exec_until exec fst snd]. destruct (v e0) as [w e1]. destruct (gone e1) eqn:G1.
    + exists [], (parts w), e1, e1. intros t. unfold unless_gone. cbn [fst snd]. rewrite G1. unfold append. rewrite format_into_extend. split; [reflexivity|]. split; [reflexivity|congruence].
    + exists (parts w), [], e1, e1. intros t. unfold unless_gone. cbn [fst snd]. rewrite G1, app_nil_r. unfold append. rewrite format_into_extend. auto.
  - intros it body F. destruct (FF body F) as [C W].
    assert (K : forall bs, cuts (fold_until gone (fun b st => unless_gone gone (b (fst st), snd st) (fold_until gone until body)) bs)
       (fold_state (fun b st => fold_state exec body (b (fst st), snd st)) bs) /\ goes (fold_state (fun b st => fold_state exec body (b (fst st), snd st)) bs)).
    { intros bs. split; [apply cuts_fold|apply goes_fold]; apply Forall_forall; intros b _; [split|]; try (apply goes_with; exact W).
      apply cuts_from; auto. }
    intros e G. destruct (K (fst (it e))) as [KC KW]. destruct (cuts_from _ _ (fun _ => snd (it e)) KC KW e G) as (i1 & i2 & e1 & e2 & H).
    exists i1, i2, e1, e2. intros t. specialize (H t). cbn [fst snd] in H. cbn [exec_until exec fst snd]. destruct (it e) as [bs e']. exact H.
  - intros it body join FB FJ. destruct (FF body FB) as [C W]. destruct (FF join FJ) as [CJ WJ].
    intros e G. destruct (cuts_from _ _ (fun _ => snd (it e)) (cuts_join _ _ _ _ (fst (it e)) C W CJ WJ) (goes_join _ _ _ W WJ) e G) as (i1 & i2 & e1 & e2 & H).
    exists i1, i2, e1, e2. intros t. specialize (H t). cbn [fst snd] in H. cbn [exec_until exec fst snd]. destruct (it e) as [bs e']. exact H.
  - intros cond a b FA FB. destruct (FF a FA) as [C W]. intros e G.
    assert (K : cuts (fun st => if fst (cond e) then untils a st else match b with Some b => untils b st | None => st end)
                 (fun st => if fst (cond e) then execs a st else match b with Some b => execs b st | None => st end) /\
                goes (fun st : E * tokens LI => if fst (cond e) then execs a st else match b with Some b => execs b st | None => st end)).
    { destruct (fst (cond e)); [split; [exact C|exact W]|]. destruct b as [b|]; [exact (FF b FB)|]. split; [exact cuts_id|exact goes_id]. }
    destruct K as [KC KW]. destruct (cuts_from _ _ (fun _ => snd (cond e)) KC KW e G) as (i1 & i2 & e1 & e2 & H).
    exists i1, i2, e1, e2. intros t. specialize (H t). cbn [fst snd] in H. cbn [exec_until exec fst snd]. destruct (cond e) as [yes e']. exact H.
  - intros sel arms F e G.
    assert (K : cuts (fun st => match nth_error arms (fst (sel e)) with Some a => untils a st | None => st end)
                 (fun st => match nth_error arms (fst (sel e)) with Some a => execs a st | None => st end) /\
                goes (fun st : E * tokens LI => match nth_error arms (fst (sel e)) with Some a => execs a st | None => st end)).
    { destruct (nth_error arms (fst (sel e))) as [a|] eqn:N; [|split; [exact cuts_id|exact goes_id]].
      rewrite Forall_forall in F. apply FF, F. eapply nth_error_In; eauto. }
    destruct K as [KC KW]. destruct (cuts_from _ _ (fun _ => snd (sel e)) KC KW e G) as (i1 & i2 & e1 & e2 & H).
    exists i1, i2, e1, e2. intros t. specialize (H t). cbn [fst snd] in H. cbn [exec_until exec fst snd]. destruct (sel e) as [i e'].
    cbn [fst snd] in H. rewrite pick_exec. unfold unless_gone in *. cbn [fst snd] in *. destruct (gone e'); [exact H|]. rewrite pick_until. exact H.
Qed.
Lemma untils_cuts l : cuts (untils l) (execs l).
Proof. apply cuts_fold, Forall_forall. intros c _. split; [apply all_cuts|apply all_goes]. Qed.

(** ** The code up to an element *)
Lemma chunks_cons k ks st : chunks_run (k :: ks) st = @chunks_run LI E ks (chunk_step st k).
Proof. reflexivity. Qed.
Lemma chunks_grow ks : forall o b, exists new, fst (@chunks_run LI E ks (o, b)) = o ++ new.
Proof.
  induction ks as [|k ks IH]; intros o b; [exists []; cbn; rewrite app_nil_r; reflexivity|].
  rewrite chunks_cons. destruct k as [s|c|f]; cbn [chunk_step].
  - apply IH.
  - destruct (IH (o ++ text_code b ++ c) []) as [n H]. eexists. etransitivity; [exact H|]. rewrite <- app_assoc. reflexivity.
  - destruct (IH (o ++ [SEffect f]) b) as [n H]. eexists. etransitivity; [exact H|]. rewrite <- app_assoc. reflexivity.
Qed.
Lemma says_settled ks e cs e' : says ks e cs e' -> forall o b, exists new,
  fst (@chunks_run LI E ks (o, b)) = o ++ new /\
  supplies new e (match settled cs with [] => [] | l => join_texts b l end) e'.
Proof.
  induction 1; intros o b; rewrite ?chunks_cons; cbn [chunk_step].
  - exists []. split; [cbn; rewrite app_nil_r; reflexivity|apply supplies_nil].
  - destruct (IHsays o (b ++ s)) as (n & H1 & H2). exists n. split; [exact H1|]. cbn [settled].
    destruct (settled cs) as [|k l]; [exact H2|]. exact H2.
  - destruct (IHsays (o ++ text_code b ++ c) []) as (n & H1 & H2). exists ((text_code b ++ c) ++ n). split; [etransitivity; [exact H1|]; rewrite <- !app_assoc; reflexivity|].
    cbn [settled]. assert (Q : match settled cs with [] => [KItems its] | c0 :: l => KItems its :: c0 :: l end = KItems its :: settled cs) by (destruct (settled cs); reflexivity).
    rewrite Q. cbn [join_texts]. rewrite app_assoc.
    eapply supplies_app; [eapply supplies_app; [apply supplies_text|exact H]|].
    destruct (settled cs) as [|k l]; exact H2.
  - destruct (IHsays (o ++ [SEffect f]) b) as (n & H1 & H2). exists ([SEffect f] ++ n). split; [etransitivity; [exact H1|]; rewrite <- app_assoc; reflexivity|].
    intros t. rewrite execs_app. apply H2.
Qed.
Lemma untils_app (a b : list stmt) st : gone (fst st) = false ->
  untils (a ++ b) st = if gone (fst (untils a st)) then untils a st else untils b (untils a st).
Proof. apply until_app. Qed.
Lemma untils_prefix (a b : list stmt) st : gone (fst st) = false -> gone (fst (untils (a ++ b) st)) = false -> gone (fst (untils a st)) = false.
Proof. intros G H. rewrite untils_app in H by auto. destruct (gone (fst (untils a st))) eqn:Q; congruence. Qed.
(** Statements that only add to the stream leave nothing. *)
Definition plain (c : stmt) : Prop := match c with SStatic _ | SItem _ | SSpace | SPush | SLine | SIndent | SUnindent => True | _ => False end.
Lemma plain_env l : Forall plain l -> forall st : E * tokens LI, gone (fst st) = false -> gone (fst (untils l st)) = false.
Proof.
  induction 1 as [|c l P _ IH]; intros st G; [exact G|]. unfold execs_until. rewrite until_cons.
  assert (Q : fst (until c st) = fst st) by (destruct c; cbn in P; try tauto; reflexivity). rewrite Q, G. apply IH. rewrite Q. exact G.
Qed.
Lemma plain_text s : Forall plain (@text_code LI E s).
Proof. destruct s; repeat constructor. Qed.
Lemma plain_acts h : Forall plain (map (@act_stmt LI E) h).
Proof. induction h as [|a h IH]; constructor; auto. destruct a; exact I. Qed.


Lemma element_at (qs pre : list quoted) c x post r code e t e1 t1 :
  all_tokens qs = all_tokens pre ++ (c, LOther x) :: post ->
  quote_code qs = Some (r, code) -> gone e = false ->
  quote_in_until gone pre e t = Some (e1, t1) -> gone e1 = false ->
  exists cx rest its, code = cx ++ rest /\
    its = join_texts [] (match x with QEffect _ _ => settled (up_to pre c e) | _ => up_to pre c e end) /\
    exists cx0, cx = cx0 ++ match quote_code [x] with Some (_, c) => c | None => [] end /\ quote_code [x] <> None /\
    untils cx0 (e, t) = (e1, extend its t).
Proof.
  intros TK QC G0 QP G1.
  pose proof (all_tokens_ok qs) as TO. rewrite TK in TO. apply Forall_app in TO as [_ TO]. inversion TO as [|? ? TX TP]; subst x0 l. destruct TX as [OP CU]. cbn [fst snd] in OP, CU. clear TO.
  unfold quote_code, block_with in QC. cbn [option_map] in QC. rewrite fold_tokens, TK, fold_opt_app, <- fold_tokens in QC.
  assert (AT : at_place (@encoder_new LI E None None) None) by (cbn; auto).
  pose proof (fold_ok pre (proj2 (Forall_forall _ _) (fun x _ => proj1 elements x)) _ _ AT) as FO.
  unfold quote_in_until, quote_code, block_with in QP. cbn [option_map] in QP.
  destruct (fold_opt encode pre (encoder_new None None)) as [s1|]; [|discriminate]. cbn [bind] in *.
  destruct FO as (w1 & ks1 & A1 & SE1 & CC1 & M1). destruct (M1 [] e) as (cs1 & e1' & S1 & Q1). cbn [app] in Q1.
  (* the code of what precedes *)
  unfold finalize in QP. rewrite SE1 in QP. cbn [encoder_new e_span_end bind snd option_map] in QP.
  rewrite (f_equal fst (flush_code s1) : e_output (flush s1) = _) in QP. cbn [fst] in QP.
  assert (NG1 : gone (fst (untils (e_output s1 ++ text_code (e_buffer s1)) (e, t))) = false).
  { eapply untils_prefix; [exact G0|]. injection QP as QP. rewrite QP. exact G1. }
  assert (E1 : e1' = e1).
  { injection QP as QP. assert (K : gone (fst (untils ((e_output s1 ++ text_code (e_buffer s1)) ++ map (fun _ => SUnindent) (e_indents (flush s1))) (e, t))) = false) by (rewrite QP; exact G1).
    apply untils_exec in K. rewrite QP, execs_app in K. pose proof (says_supplies _ _ _ _ S1 []) as SS.
    pose proof (chunks_flush ks1 [] [] (code_of s1) CC1) as CO. cbn [code_of fst snd app] in CO. rewrite CO, (SS t), (supplies_closing _ _ _) in K. congruence. }
  subst e1'. clear QP.
  (* the element *)
  rewrite fold_opt_cons in QC. unfold enc_leaf at 1 in QC. cbn [snd] in QC.
  assert (STEP : forall b s2, step c (require b s1) = Some s2 -> exists ks cs (A : { w | at_place s2 w }), code_of s2 = chunks_run ks ([], []) /\ e_span_end s2 = None /\
     says ks e cs e1 /\ cs = up_to pre c e /\ gone (fst (untils (e_output s2 ++ text_code (e_buffer s2)) (e, t))) = false).
  { intros b s2 ST. assert (A1' : at_place (require b s1) w1) by (apply at_require; auto).
    pose proof (step_enter c _ _ A1') as SN. destruct (enter c w1) as [[p w2]|] eqn:EN; [|congruence].
    destruct SN as (s2' & g & ST' & A2 & SE2 & _ & RZ & CC2). rewrite ST in ST'. injection ST' as <-.
    destruct (enter_says c w1 g p w2 EN RZ cs1 e1) as (cs2 & S2 & Q2).
    exists (ks1 ++ gap_chunk c w1 g), (cs1 ++ cs2), (exist _ w2 A2). split; [rewrite chunks_run_app, CC2; f_equal; exact CC1|].
    split; [rewrite SE2; exact SE1|]. split; [eapply says_app; eauto|]. split; [unfold up_to; rewrite Q1, Q2; reflexivity|].
    unfold gap_chunk in CC2. destruct RZ as (_ & h & -> & _). destruct (adjacent c w1).
    - cbn in CC2. injection CC2 as -> ->. exact NG1.
    - cbn in CC2. injection CC2 as -> ->. cbn [text_code]. rewrite app_nil_r, app_assoc, untils_app by exact G0.
      rewrite NG1. apply plain_env; [apply plain_acts|exact NG1]. }
  assert (REST : forall s2 w2, at_place s2 w2 -> e_span_end s2 = None -> bind (fold_opt enc_leaf post s2) finalize = Some (r, code) -> exists rest, code = e_output s2 ++ rest).
  { clear -TP. intros s2 w2 A2 SE2 H. pose proof (tokens_step post TP s2 w2 A2) as T.
    destruct (fold_opt enc_leaf post s2) as [s3|]; [|discriminate]. cbn [bind] in H.
    destruct T as (ps & w' & seps & ks & _ & _ & SE3 & _ & _ & CC). rewrite SE2 in SE3.
    unfold finalize in H. rewrite SE3 in H. cbn [bind] in H. injection H as _ <-.
    destruct (chunks_grow (interleave seps ks) (e_output s2) (e_buffer s2)) as [n N].
    pose proof (f_equal fst CC) as C1. cbn [code_of fst] in C1.
    rewrite (f_equal fst (flush_code s3) : e_output (flush s3) = _). cbn [fst]. eexists. rewrite C1, <- !app_assoc. unfold code_of. 
    etransitivity; [apply (f_equal (fun z => z ++ _)); exact N|]. rewrite <- app_assoc. reflexivity. }
  clear AT A1 M1 S1 Q1 SE1 CC1. pose proof (opaque_code x OP) as OC.
  assert (MAIN : match quote_code [x] with
      | None => forall s, encode x s = None
      | Some (r, code) => exists b1 b2, r = b1 || b2 /\ forall s,
          encode x s = bind (step (cursor_of x) (require b1 s)) (fun s => Some (emit code (flush (require b2 s))))
      end -> exists cx rest, code = cx ++ rest /\
    exists cx0, cx = cx0 ++ match quote_code [x] with Some (_, c) => c | None => [] end /\ quote_code [x] <> None /\
    untils cx0 (e, t) = (e1, extend (join_texts [] (up_to pre c e)) t)).
  { destruct (quote_code [x]) as [[rx cx]|] eqn:QX; [|intros K; rewrite K in QC; discriminate].
    intros (b1 & b2 & _ & K). rewrite K, <- CU in QC. destruct (step c (require b1 s1)) as [s2|] eqn:ST; [|discriminate]. cbn [bind] in QC.
    destruct (STEP b1 s2 ST) as (ks & cs & A2 & CC & SE & SY & -> & NG).
    destruct (REST _ (proj1_sig A2) (at_emit _ _ _ (at_flush _ _ (proj2 (at_require _ _ _) (proj2_sig A2)))) (eq_trans (end_flush (require b2 s2) : e_span_end (emit cx (flush (require b2 s2))) = _) SE) QC) as [rest ->].
    eexists _, rest. split; [reflexivity|]. exists (e_output s2 ++ text_code (e_buffer s2)).
    pose proof (f_equal fst (flush_emit cx (require b2 s2))) as FE. cbn [code_of fst require e_output e_buffer chunk_step] in FE.
    split; [rewrite <- app_assoc; exact FE|]. split; [discriminate|].
    rewrite untils_exec by exact NG. pose proof (chunks_flush ks [] [] (code_of s2) CC) as CO. cbn [code_of fst snd app] in CO. rewrite CO.
    apply (says_supplies _ _ _ _ SY []). }
  destruct x; try discriminate OP;
    try (destruct (MAIN OC) as (cx & rest & H1 & cx0 & H2); exists cx, rest; eexists; split; [exact H1|]; split; [reflexivity|]; exists cx0; exact H2).
  clear MAIN. cbn [cursor_of] in CU. subst c0. rewrite OC in QC. destruct (step c s1) as [s2|] eqn:ST; [|discriminate]. cbn [bind] in QC.
  rewrite <- (require_false s1) in ST. destruct (STEP false s2 ST) as (ks & cs & A2 & CC & SE & SY & -> & NG).
  destruct (REST _ (proj1_sig A2) (at_emit _ _ _ (proj2_sig A2)) SE QC) as [rest ->].
  destruct (says_settled _ _ _ _ SY [] []) as (n & N1 & N2).
  eexists _, rest, _. split; [reflexivity|]. split; [reflexivity|]. exists (e_output s2).
  assert (QX : quote_code [QEffect c f] = Some (false, [@SEffect LI E f])) by reflexivity. rewrite QX.
  split; [reflexivity|]. split; [discriminate|].
  rewrite untils_exec by (eapply untils_prefix; [exact G0|exact NG]).
  pose proof (f_equal fst CC) as C1. cbn [code_of fst] in C1. rewrite (eq_trans C1 N1). cbn [app]. rewrite (N2 t). f_equal.
  destruct (settled (up_to pre c e)); reflexivity.
Qed.
End Facts.
