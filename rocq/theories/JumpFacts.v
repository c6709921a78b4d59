(** * Lemmas: [break] and [continue] in quoted loops. *)
From Verif Require Import Str Tokens SpecTokens TokensRun TokensFacts AlgebraFacts Values ValuesFacts SpecFmt Macro SpecMacro SpecQuote
  MacroFacts MacroSem MacroTokens MacroControl Exit SpecExit ExitFacts Jump SpecJump.

Section Facts.
Context {LI E : Type} (how : E -> option jump) (back : E -> E).
Notation stmt := (stmt LI E). Notation quoted := (quoted_item LI E).
Notation gone := (away how).
Notation until := (exec_until gone). Notation untils := (execs_until gone).
Notation jumps := (execs_jump how back). Notation jumped := (exec_jump how back).

Lemma for_jump_cons body b bs (st : E * tokens LI) : for_jump how back body (b :: bs) st =
  arrive how back (unless_gone gone (b (fst st), snd st) body) (for_jump how back body bs).
Proof. reflexivity. Qed.
Lemma join_jump_cons body join b bs (st : E * tokens LI) : join_jump how back body join (b :: bs) st =
  arrive how back (unless_gone gone (b (fst st), snd st) (fun st =>
                unless_gone gone (body st) (fun st =>
                match bs with [] => st | _ => join st end))) (join_jump how back body join bs).
Proof. reflexivity. Qed.
Lemma pick_jump (arms : list (list stmt)) : forall i st,
  (fix pick (arms : list (list stmt)) (i : nat) : E * tokens LI :=
         match arms, i with
         | a :: _, O => fold_until gone jumped a st
         | _ :: arms', S i' => pick arms' i'
         | [], _ => st
         end) arms i = match nth_error arms i with Some a => jumps a st | None => st end.
Proof. induction arms as [|a arms IH]; intros [|i] st; try reflexivity. apply IH. Qed.
Lemma away_none e : gone e = false -> how e = None.
Proof. unfold away. destruct (how e); congruence. Qed.
Lemma none_away e : how e = None -> gone e = false.
Proof. unfold away. intros ->. reflexivity. Qed.
Lemma arrive_stays (st : E * tokens LI) next : gone (fst st) = false -> arrive how back st next = next st.
Proof. intros G. unfold arrive. rewrite (away_none _ G). reflexivity. Qed.

(** ** When nothing breaks or continues, loops are as without *)
Definition same_as (ok : E -> Prop) (f g : E * tokens LI -> E * tokens LI) : Prop := forall st, ok (fst (g st)) -> f st = g st.

(** One that ends where it should has not jumped. *)
Lemma same_fold {A} (f g : A -> E * tokens LI -> E * tokens LI) l :
  Forall (fun x => forall st, gone (fst (g x st)) = false -> f x st = g x st) l ->
  forall st, gone (fst (fold_until gone g l st)) = false -> fold_until gone f l st = fold_until gone g l st.
Proof.
  induction 1 as [|x l H _ IH]; intros st G; [reflexivity|]. rewrite !until_cons in *.
  destruct (gone (fst (g x st))) eqn:G1; [congruence|]. rewrite (H _ G1), G1. apply IH. exact G.
Qed.
Lemma unless_same (st : E * tokens LI) f g : (gone (fst (g st)) = false -> f st = g st) ->
  gone (fst (unless_gone gone st g)) = false -> unless_gone gone st f = unless_gone gone st g.
Proof. unfold unless_gone. intros H G. destruct (gone (fst st)); [reflexivity|auto]. Qed.
Lemma jump_stays : forall (c : stmt) st, gone (fst (until c st)) = false -> jumped c st = until c st.
Proof.
  set (P := fun c : stmt => forall st, gone (fst (until c st)) = false -> jumped c st = until c st).
  assert (FF : forall l, Forall P l -> forall st, gone (fst (untils l st)) = false -> jumps l st = untils l st).
  { intros l F. apply same_fold. exact F. }
  apply (stmt_ind' P).
  - intros c. destruct c; auto; intros st G; reflexivity.
  - intros it body F st. cbn [exec_until exec_jump]. destruct (it (fst st)) as [bs e]. apply unless_same. generalize (e, snd st). clear st e.
    induction bs as [|b bs IH]; intros st G; [reflexivity|]. rewrite until_cons in *. rewrite for_jump_cons.
    destruct (gone (fst (unless_gone gone (b (fst st), snd st) (fold_until gone until body)))) eqn:G1; [congruence|].
    rewrite (unless_same _ (fold_until gone jumped body) _ (FF body F _) G1), arrive_stays by exact G1. apply IH, G.
  - intros it body join FB FJ st. cbn [exec_until exec_jump]. destruct (it (fst st)) as [bs e]. apply unless_same. generalize (e, snd st). clear st e.
    induction bs as [|b bs IH]; intros st G; [reflexivity|]. rewrite join_until_cons in *. rewrite join_jump_cons.
    apply unless_inv in G as (G0 & G & ->). apply unless_inv in G as (G1 & G & ->). apply unless_inv in G as (G2 & G & ->).
    cbn [fst] in G0. assert (X : fold_until gone jumped body (b (fst st), snd st) = fold_until gone until body (b (fst st), snd st)) by (apply (FF body FB); exact G1).
    unfold unless_gone at 1. cbn [fst]. rewrite G0, X. unfold unless_gone at 1. rewrite G1.
    assert (Y : match bs with [] => fold_until gone until body (b (fst st), snd st) | _ => fold_until gone jumped join (fold_until gone until body (b (fst st), snd st)) end =
                match bs with [] => fold_until gone until body (b (fst st), snd st) | _ => fold_until gone until join (fold_until gone until body (b (fst st), snd st)) end).
    { destruct bs; [reflexivity|]. apply (FF join FJ). exact G2. }
    rewrite Y, arrive_stays by exact G2. apply IH, G.
  - intros cond a b FA FB st. cbn [exec_until exec_jump]. destruct (cond (fst st)) as [yes e]. apply unless_same.
    destruct yes; [apply (FF a FA)|]. destruct b as [b|]; [|reflexivity]. apply (FF b FB).
  - intros sel arms F st. cbn [exec_until exec_jump]. destruct (sel (fst st)) as [i e]. apply unless_same.
    rewrite pick_until, pick_jump. destruct (nth_error arms i) as [a|] eqn:N; [|reflexivity].
    rewrite Forall_forall in F. apply (FF a). apply F. eapply nth_error_In; eauto.
Qed.
Lemma jumps_stay l (st : E * tokens LI) : gone (fst (untils l st)) = false -> jumps l st = untils l st.
Proof. apply same_fold, Forall_forall. intros c _. apply jump_stays. Qed.

(** Where code can only leave, there is no difference. *)
Lemma only_leaves : (forall e, how e = None \/ how e = Some Leaves) -> forall (c : stmt) st, jumped c st = until c st.
Proof.
  intros L. set (P := fun c : stmt => forall st, jumped c st = until c st).
  assert (FF : forall l, Forall P l -> forall st, jumps l st = untils l st).
  { induction 1 as [|x l H _ IH]; intros st; [reflexivity|]. unfold execs_jump, execs_until in *. rewrite !until_cons, (H st), IH. reflexivity. }
  assert (AR : forall (st : E * tokens LI) next, arrive how back st next = unless_gone gone st next).
  { intros st next. unfold arrive, unless_gone, away. destruct (L (fst st)) as [-> | ->]; reflexivity. }
  assert (AS : forall (st : E * tokens LI) f g, unless_gone gone (unless_gone gone st f) g = unless_gone gone st (fun st => unless_gone gone (f st) g)).
  { intros st f g. unfold unless_gone. destruct (gone (fst st)) eqn:G; [rewrite G|]; reflexivity. }
  assert (US : forall (st : E * tokens LI) f g, (forall st, f st = g st) -> unless_gone gone st f = unless_gone gone st g).
  { intros st f g H. unfold unless_gone. destruct (gone (fst st)); auto. }
  apply (stmt_ind' P).
  - intros c. destruct c; auto; intros st; reflexivity.
  - intros it body F st. cbn [exec_until exec_jump]. destruct (it (fst st)) as [bs e]. apply US. clear st e.
    induction bs as [|b bs IH]; intros st; [reflexivity|]. rewrite until_cons, for_jump_cons, AR.
    rewrite (US _ (fold_until gone jumped body) (fold_until gone until body) (FF body F)). unfold unless_gone at 1.
    destruct (gone (fst (unless_gone gone (b (fst st), snd st) (fold_until gone until body)))); auto.
  - intros it body join FB FJ st. cbn [exec_until exec_jump]. destruct (it (fst st)) as [bs e]. apply US. clear st e.
    induction bs as [|b bs IH]; intros st; [reflexivity|]. rewrite join_until_cons, join_jump_cons, AR, AS.
    apply US. intros st1. rewrite AS, (FF body FB : forall st, fold_until gone jumped body st = fold_until gone until body st).
    apply US. intros st2. assert (Y : match bs with [] => st2 | _ => fold_until gone jumped join st2 end = match bs with [] => st2 | _ => fold_until gone until join st2 end)
      by (destruct bs; [reflexivity|apply (FF join FJ)]).
    rewrite Y. apply US, IH.
  - intros cond a b FA FB st. cbn [exec_until exec_jump]. destruct (cond (fst st)) as [yes e]. apply US. intros st1.
    destruct yes; [apply (FF a FA)|]. destruct b as [b|]; [|reflexivity]. apply (FF b FB).
  - intros sel arms F st. cbn [exec_until exec_jump]. destruct (sel (fst st)) as [i e]. apply US. intros st1.
    rewrite pick_until, pick_jump. destruct (nth_error arms i) as [a|] eqn:N; [|reflexivity].
    rewrite Forall_forall in F. apply (FF a). apply F. eapply nth_error_In; eauto.
Qed.
Lemma all_leave l : (forall e, how e = None \/ how e = Some Leaves) -> forall st : E * tokens LI, jumps l st = untils l st.
Proof.
  intros L. induction l as [|c l IH]; intros st; [reflexivity|]. unfold execs_jump, execs_until in *.
  rewrite !until_cons, (only_leaves L c st), IH. reflexivity.
Qed.
Lemma jumps_app (a b : list stmt) st : gone (fst st) = false ->
  jumps (a ++ b) st = if gone (fst (jumps a st)) then jumps a st else jumps b (jumps a st).
Proof. apply until_app. Qed.

(** ** The statements of a quote *)
Lemma runs_jump_code (qs : list quoted) r code : quote_code qs = Some (r, code) ->
  forall st, runs_jump how back qs st = jumps code st.
Proof. intros Q [e t]. unfold runs_jump, quote_in_jump. cbn [fst snd]. rewrite Q. reflexivity. Qed.
Lemma one_jump c (st : E * tokens LI) : jumps [c] st = jumped c st.
Proof. unfold execs_jump. rewrite until_cons. cbn [fold_until]. destruct (gone (fst (jumped c st))); reflexivity. Qed.
Notation turns := (in_turn_until (state_away how)).
Lemma turn_one f (st : E * tokens LI) : turns [f] st = f st.
Proof. cbn. destruct (state_away how (f st)); reflexivity. Qed.
Lemma turn_unless f fs g (st : E * tokens LI) : (forall st, g st = turns fs st) -> unless_gone gone (f st) g = turns (f :: fs) st.
Proof. intros H. unfold unless_gone. cbn [in_turn_until]. unfold state_away at 1. rewrite H. reflexivity. Qed.
Notation around := (rounds (state_how how) (state_back back)).
Lemma around_cons f fs (st : E * tokens LI) : around (f :: fs) st = arrive how back (f st) (around fs).
Proof. reflexivity. Qed.
Lemma arrive_ext (st : E * tokens LI) f g : (forall st, f st = g st) -> arrive how back st f = arrive how back st g.
Proof. intros H. unfold arrive. rewrite !H. reflexivity. Qed.
Lemma for_rounds (body : list quoted) r code bs : quote_code body = Some (r, code) -> forall st,
  for_jump how back (jumps code) bs st = around (map (fun b => turns (round how back body b)) bs) st.
Proof.
  intros Q. induction bs as [|b bs IH]; intros st; [reflexivity|]. cbn [map]. rewrite for_jump_cons, around_cons, (arrive_ext _ _ _ IH).
  f_equal. refine (turn_unless (sets b) [runs_jump how back body] _ st _). intros st1. rewrite turn_one. symmetry. apply (runs_jump_code _ _ _ Q).
Qed.
Lemma joined_cons join body b bs : joined_rounds how back join body (b :: bs) =
  (round how back body b ++ match bs with [] => [] | _ => [runs_jump how back join] end) :: @joined_rounds LI E how back join body bs.
Proof. destruct bs; cbn [joined_rounds]; rewrite ?app_nil_r; reflexivity. Qed.
Lemma join_rounds (join body : list quoted) r code rj cj bs : quote_code body = Some (r, code) -> quote_code join = Some (rj, cj) -> forall st,
  join_jump how back (jumps code) (jumps cj) bs st = around (map (fun fs => turns fs) (joined_rounds how back join body bs)) st.
Proof.
  intros Q QJ. induction bs as [|b bs IH]; intros st; [reflexivity|]. rewrite joined_cons. cbn [map]. rewrite join_jump_cons, around_cons, (arrive_ext _ _ _ IH).
  f_equal. apply (turn_unless (sets b) (runs_jump how back body :: _)). intros st1. rewrite <- (runs_jump_code _ _ _ Q).
  apply (turn_unless (runs_jump how back body)). intros st2. destruct bs; [reflexivity|]. rewrite turn_one. symmetry. apply (runs_jump_code _ _ _ QJ).
Qed.

(** ** Skipping *)
Lemma skip_body (body : list quoted) c f post : all_tokens body = (c, LOther (QLet c f)) :: post -> accepted body ->
  forall e t, how e = None -> gone (f e) = true -> runs_jump how back body (e, t) = (f e, t).
Proof.
  intros TK A e t H G. unfold accepted in A. destruct (quote_code body) as [[r code]|] eqn:Q; [|congruence].
  rewrite (runs_jump_code _ _ _ Q). pose proof (none_away _ H) as G0.
  destruct (element_at gone body [] c (QLet c f) post r code e t e t TK Q G0 eq_refl G0) as (cx & rest & its & -> & -> & cx0 & -> & NX & U).
  assert (QX : quote_code [QLet c f] = Some (false, [@SLet LI E f])) by reflexivity. rewrite QX. clear QX NX.
  rewrite <- app_assoc, jumps_app by exact G0.
  assert (NU : gone (fst (untils cx0 (e, t))) = false) by (rewrite U; exact G0). rewrite (jumps_stay _ _ NU), NU, U.
  cbn [app]. unfold execs_jump. rewrite until_cons. cbn [exec_jump fst snd]. rewrite G. reflexivity.
Qed.
End Facts.
