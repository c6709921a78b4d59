(** * Lemmas: separations, lines and levels. *)
From Coq Require Import Sorted.
From Verif Require Import Str Tokens SpecTokens SpecFmt Macro SpecMacro MacroFacts MacroTokens.

(** ** Enclosing columns *)
Fixpoint enclosing (ss : list nat) : list nat :=
  match ss with
  | [] => []
  | c :: ss' => enclosing ss' ++ if forallb (fun d => c <? d) ss' then [c] else []
  end.
Lemma enclosing_snoc ss col : enclosing (ss ++ [col]) = col :: filter (fun c => c <? col) (enclosing ss).
Proof.
  induction ss as [|c ss IH]; [reflexivity|]. cbn [app enclosing]. rewrite IH, filter_app, forallb_app. cbn [forallb app]. f_equal. f_equal.
  rewrite andb_true_r. destruct (forallb _ ss); cbn [andb filter]; [|reflexivity]. destruct (c <? col); reflexivity.
Qed.
Lemma level_enclosing ss : ss <> [] -> length (enclosing ss) = S (level ss).
Proof.
  induction ss as [|c ss IH]; [congruence|]. intros _. cbn [enclosing level]. rewrite app_length.
  destruct ss as [|d ss]; [reflexivity|]. rewrite IH by discriminate. destruct (forallb _ _); cbn [length]; lia.
Qed.
Lemma enclosing_sorted ss : StronglySorted gt (enclosing ss).
Proof.
  induction ss as [|col ss IH] using rev_ind; [constructor|]. rewrite enclosing_snoc. constructor.
  - clear -IH. induction IH as [|x l S IH F]; [constructor|]. cbn [filter]. destruct (x <? col); auto. constructor; auto.
    apply Forall_forall. intros y Hy. apply filter_In in Hy as [Hy _]. rewrite Forall_forall in F. auto.
  - apply Forall_forall. intros y Hy. apply filter_In in Hy as [_ Hy]. apply Nat.ltb_lt in Hy. lia.
Qed.
Lemma enclosing_top ss : ss <> [] -> exists l, enclosing ss = last ss 0 :: l.
Proof.
  destruct ss as [|col ss] using rev_ind; [congruence|]. intros _. rewrite enclosing_snoc, last_last. eauto.
Qed.
Lemma aligned_enclosing ss col : aligned ss col <-> In col (enclosing ss).
Proof.
  split.
  - intros (pre & post & -> & F). induction post as [|d post IH] using rev_ind.
    + rewrite enclosing_snoc. left. reflexivity.
    + apply Forall_app in F as [F1 F2]. inversion F2 as [|? ? D _]; subst.
      rewrite app_comm_cons, app_assoc, enclosing_snoc. destruct (Nat.eq_dec d col) as [->|N]; [left; reflexivity|right].
      apply filter_In. split; [auto|]. apply Nat.ltb_lt. lia.
  - induction ss as [|d ss IH] using rev_ind; [intros []|]. rewrite enclosing_snoc. intros [<-|H].
    + exists ss, []. split; auto.
    + apply filter_In in H as [H1 H2]. apply Nat.ltb_lt in H2. destruct (IH H1) as (pre & post & -> & F).
      exists pre, (post ++ [d]). rewrite <- app_assoc. split; auto. apply Forall_app. split; auto. constructor; [lia|constructor].
Qed.

Lemma outdent_spec col cols : StronglySorted gt cols ->
  match outdent col cols with
  | Some (n, cs) => In col cols /\ cs = col :: filter (fun c => c <? col) cols /\ length cols = n + length cs
  | None => ~ In col cols
  end.
Proof.
  induction 1 as [|c cols S IH F]; [intros []|]. cbn [outdent].
  destruct (Nat.eqb_spec c col) as [->|N].
  - split; [left; reflexivity|]. cbn [filter]. rewrite Nat.ltb_irrefl.
    assert (Q : filter (fun c => c <? col) cols = cols).
    { clear -F. induction F as [|x l H _ IH]; [reflexivity|]. cbn [filter]. destruct (Nat.ltb_spec x col); [rewrite IH; auto|lia]. }
    rewrite Q. split; reflexivity.
  - destruct (Nat.ltb_spec col c) as [L|L].
    + destruct (outdent col cols) as [[n cs]|]; cbn [option_map].
      * destruct IH as (I & -> & LN). split; [right; auto|]. cbn [filter]. destruct (Nat.ltb_spec c col); [lia|]. split; [reflexivity|].
        cbn [length] in *. lia.
      * intros [->|I]; [lia|auto].
    + intros [->|I]; [lia|]. rewrite Forall_forall in F. apply F in I. lia.
Qed.

(** One line after others. *)
Definition breaks_of (frm to : pos) : nat := if 1 <? p_line to - p_line frm then 2 else 1.
Lemma gap_line frm to ss : ss <> [] -> p_line frm < p_line to ->
  match gap frm to (enclosing ss) with
  | Some (p, cols) => cols = enclosing (ss ++ [p_col to]) /\
      (may_start ss (p_col to) /\ p = mk_pending (breaks_of frm to) false 0 (Z.of_nat (level (ss ++ [p_col to])) - Z.of_nat (level ss)) \/
       ~ may_start ss (p_col to) /\ level ss = 0 /\ p = nothing)
  | None => ~ may_start ss (p_col to) /\ level ss <> 0
  end.
Proof.
  intros N L. unfold gap. destruct (Nat.eqb_spec (p_line frm) (p_line to)); [lia|]. destruct (Nat.ltb_spec (p_line to) (p_line frm)); [lia|].
  fold (breaks_of frm to). destruct (enclosing_top ss N) as [l T]. pose proof (level_enclosing ss N) as LV.
  assert (N2 : ss ++ [p_col to] <> []) by (destruct ss; discriminate).
  pose proof (level_enclosing _ N2) as LV2. rewrite enclosing_snoc in LV2 |- *. cbn [length] in LV2. rewrite T in *.
  set (c := last ss 0) in *. assert (SO : StronglySorted gt (c :: l)) by (rewrite <- T; apply enclosing_sorted).
  assert (Deep : c < p_col to -> may_start ss (p_col to) /\ filter (fun d => d <? p_col to) (c :: l) = c :: l).
  { intros C. split; [left; fold c; lia|]. inversion SO as [|? ? _ F]; subst. cbn [filter]. destruct (Nat.ltb_spec c (p_col to)); [|lia]. f_equal.
    clear -F C. induction F as [|x l H _ IH]; [reflexivity|]. cbn [filter]. destruct (Nat.ltb_spec x (p_col to)); [rewrite IH; auto|lia]. }
  assert (Main : match option_map (fun '(k, cs) => (mk_pending (breaks_of frm to) false 0 k, cs)) (new_line (p_col to) (c :: l)) with
    | Some (p, cols) => cols = p_col to :: filter (fun c0 => c0 <? p_col to) (c :: l) /\ may_start ss (p_col to) /\
         p = mk_pending (breaks_of frm to) false 0 (Z.of_nat (level (ss ++ [p_col to])) - Z.of_nat (level ss))
    | None => ~ may_start ss (p_col to) end).
  { unfold new_line. destruct (Nat.ltb_spec c (p_col to)) as [C|C]; cbn [option_map].
    - destruct (Deep C) as [M Q]. rewrite Q in *. split; auto. split; auto. f_equal. cbn [length] in *. lia.
    - pose proof (outdent_spec (p_col to) (c :: l) SO) as O. destruct (outdent (p_col to) (c :: l)) as [[m cs]|]; cbn [option_map].
      + destruct O as (I & -> & LN). split; [reflexivity|]. split; [right; apply aligned_enclosing; rewrite T; auto|].
        f_equal. cbn [length] in *. lia.
      + intros [M|M]; [|apply aligned_enclosing in M; rewrite T in M; auto]. fold c in M. assert (c = p_col to) by lia. apply O. left. auto. }
  destruct l as [|c2 l].
  - destruct (Nat.ltb_spec (p_col to) c) as [C|C].
    + split; [cbn [filter]; destruct (Nat.ltb_spec c (p_col to)); [lia|reflexivity]|]. right. split.
      * intros [M|M]; [fold c in M; lia|]. apply aligned_enclosing in M. rewrite T in M. destruct M as [M|[]]. lia.
      * split; [cbn in LV; lia|reflexivity].
    + destruct (option_map _ _) as [[p cols]|] eqn:OM.
      * destruct Main as (-> & M & ->). auto.
      * exfalso. unfold new_line in OM. destruct (c <? p_col to); [discriminate|]. cbn [outdent] in OM.
        destruct (Nat.eqb_spec c (p_col to)); [discriminate|]. apply Main. left. fold c. lia.
  - destruct (option_map _ _) as [[p cols]|].
    + destruct Main as (-> & M & ->). auto.
    + split; auto. cbn [length] in LV. lia.
Qed.

(** ** All separations *)
Lemma starts_after_snoc cs c : forall row, starts_after row (cs ++ [c]) =
  starts_after row cs ++ (if p_line (c_end (last cs (mk_cursor (mk_pos 0 0) (mk_pos row 0)))) =? p_line (c_start c) then [] else [p_col (c_start c)]).
Proof.
  induction cs as [|d cs IH]; intros row.
  - cbn. rewrite app_nil_r. reflexivity.
  - cbn [app starts_after]. rewrite IH, <- app_assoc. do 2 f_equal. destruct cs as [|d2 cs]; [reflexivity|].
    cbn [last]. assert (X : forall (l : list cursor) y d1 d2, last (y :: l) d1 = last (y :: l) d2).
    { clear. induction l as [|z l IH]; intros y d1 d2; [reflexivity|]. change (last (z :: l) d1 = last (z :: l) d2). apply IH. }
    change (match cs with [] => d2 | _ :: _ => last cs ?x end) with (last (d2 :: cs) x). rewrite (X cs d2 _ (mk_cursor (mk_pos 0 0) (mk_pos row 0))). reflexivity.
Qed.
Lemma line_starts_snoc pre a c : line_starts ((pre ++ [a]) ++ [c]) =
  line_starts (pre ++ [a]) ++ (if p_line (c_end a) =? p_line (c_start c) then [] else [p_col (c_start c)]).
Proof.
  destruct pre as [|d pre]; [cbn; rewrite app_nil_r; reflexivity|]. cbn [app line_starts]. rewrite starts_after_snoc, last_last. reflexivity.
Qed.
Lemma line_starts_some pre a : line_starts (pre ++ [a]) <> [].
Proof. destruct pre; discriminate. Qed.

Definition after (cs : list cursor) : place :=
  match rev cs with
  | [] => None
  | a :: _ => Some (c_end a, enclosing (line_starts cs))
  end.
Lemma after_snoc pre a : after (pre ++ [a]) = Some (c_end a, enclosing (line_starts (pre ++ [a]))).
Proof. unfold after. rewrite rev_app_distr. reflexivity. Qed.
Lemma depth_after cs : depth (after cs) = level (line_starts cs).
Proof.
  destruct cs as [|a cs] using rev_ind; [reflexivity|]. rewrite after_snoc. cbn [depth].
  rewrite level_enclosing by apply line_starts_some. lia.
Qed.

(** The separation between consecutive tokens. *)
Definition separation (pre : list cursor) (a b : cursor) (adj : bool) (p : pending) : Prop :=
  let ss := line_starts (pre ++ [a]) in
  if p_line (c_end a) =? p_line (c_start b) then
    adj = negb (p_col (c_end a) <? p_col (c_start b)) /\ p = mk_pending 0 (p_col (c_end a) <? p_col (c_start b)) 0 0
  else p_line (c_end a) < p_line (c_start b) /\ adj = false /\
    (may_start ss (p_col (c_start b)) /\
       p = mk_pending (breaks_of (c_end a) (c_start b)) false 0 (Z.of_nat (level (ss ++ [p_col (c_start b)])) - Z.of_nat (level ss)) \/
     ~ may_start ss (p_col (c_start b)) /\ level ss = 0 /\ p = nothing).
Lemma enter_after pre a b :
  match enter b (after (pre ++ [a])) with
  | Some (p, w) => w = after ((pre ++ [a]) ++ [b]) /\ separation pre a b (adjacent b (after (pre ++ [a]))) p
  | None => p_line (c_start b) < p_line (c_end a) \/
      p_line (c_end a) < p_line (c_start b) /\ ~ may_start (line_starts (pre ++ [a])) (p_col (c_start b)) /\ level (line_starts (pre ++ [a])) <> 0
  end.
Proof.
  rewrite !after_snoc. cbn [enter adjacent]. unfold separation. rewrite line_starts_snoc.
  destruct (Nat.eqb_spec (p_line (c_end a)) (p_line (c_start b))) as [Q|Q].
  - unfold gap. rewrite Q, Nat.eqb_refl. cbn [option_map andb]. rewrite app_nil_r. auto.
  - destruct (Nat.lt_ge_cases (p_line (c_end a)) (p_line (c_start b))) as [L|L].
    + pose proof (gap_line (c_end a) (c_start b) _ (line_starts_some pre a) L) as G.
      destruct (gap (c_end a) (c_start b) _) as [[p cols]|]; cbn [option_map].
      * destruct G as [-> G]. split; auto.
      * right. auto.
    + unfold gap. destruct (Nat.eqb_spec (p_line (c_end a)) (p_line (c_start b))); [congruence|].
      destruct (Nat.ltb_spec (p_line (c_start b)) (p_line (c_end a))); [|lia]. cbn [option_map]. left. lia.
Qed.
Lemma gaps_app a : forall b w, gaps (a ++ b) w =
  match gaps a w with
  | None => None
  | Some (ps, w1) => match gaps b w1 with None => None | Some (qs, w2) => Some (ps ++ qs, w2) end
  end.
Proof.
  induction a as [|c a IH]; intros b w; cbn [app gaps].
  - destruct (gaps b w) as [[? ?]|]; reflexivity.
  - destruct (enter c w) as [[p w1]|]; [|reflexivity]. rewrite IH. destruct (gaps a w1) as [[ps w2]|]; [|reflexivity].
    destruct (gaps b w2) as [[? ?]|]; reflexivity.
Qed.
Lemma gaps_length cs : forall w ps w', gaps cs w = Some (ps, w') -> length ps = length cs.
Proof.
  induction cs as [|c cs IH]; intros w ps w' H; cbn in H; [injection H as <- <-; reflexivity|].
  destruct (enter c w) as [[p w1]|]; [|discriminate]. destruct (gaps cs w1) as [[ps2 w2]|] eqn:Q; [|discriminate]. injection H as <- <-.
  cbn. f_equal. eauto.
Qed.
Lemma gaps_after cs : forall ps w, gaps cs None = Some (ps, w) -> w = after cs.
Proof.
  induction cs as [|c cs IH] using rev_ind; intros ps w H; [injection H as <- <-; reflexivity|].
  rewrite gaps_app in H. destruct (gaps cs None) as [[ps1 w1]|] eqn:G; [|discriminate]. specialize (IH _ _ eq_refl). subst w1.
  cbn [gaps] in H. destruct cs as [|a cs] using rev_ind; [|clear IHcs].
  - cbn in H. injection H as <- <-. reflexivity.
  - pose proof (enter_after cs a c) as EA. destruct (enter c _) as [[p w1]|]; [|discriminate]. injection H as <- <-. apply EA.
Qed.
Lemma gaps_first c cs ps w : gaps (c :: cs) None = Some (ps, w) -> nth_error ps 0 = Some (true, nothing).
Proof. cbn. destruct (gaps cs _) as [[? ?]|]; [|discriminate]. intros H. injection H as <- <-. reflexivity. Qed.
Lemma gaps_between pre a b post ps w : gaps (pre ++ a :: b :: post) None = Some (ps, w) ->
  exists adj p, nth_error ps (S (length pre)) = Some (adj, p) /\ separation pre a b adj p.
Proof.
  intros H. change (pre ++ a :: b :: post) with (pre ++ [a] ++ b :: post) in H. rewrite app_assoc, gaps_app in H.
  destruct (gaps (pre ++ [a]) None) as [[ps1 w1]|] eqn:G; [|discriminate].
  pose proof (gaps_after _ _ _ G). subst w1. apply gaps_length in G. cbn [gaps] in H.
  pose proof (enter_after pre a b) as EA. destruct (enter b _) as [[p w1]|]; [|discriminate].
  destruct (gaps post w1) as [[ps2 w2]|]; [|discriminate]. injection H as <- <-.
  exists (adjacent b (after (pre ++ [a]))), p. split; [|apply EA].
  rewrite nth_error_app2 by (rewrite G, app_length; cbn; lia). rewrite G, app_length. cbn [length]. replace (S (length pre) - (length pre + 1)) with 0 by lia. reflexivity.
Qed.
Lemma gaps_none cs : gaps cs None = None <-> exists pre a b post, cs = pre ++ a :: b :: post /\
  (p_line (c_start b) < p_line (c_end a) \/
   p_line (c_end a) < p_line (c_start b) /\ ~ may_start (line_starts (pre ++ [a])) (p_col (c_start b)) /\ level (line_starts (pre ++ [a])) <> 0).
Proof.
  split.
  - induction cs as [|c cs IH] using rev_ind; [discriminate|]. rewrite gaps_app. intros H.
    destruct (gaps cs None) as [[ps w]|] eqn:G.
    + pose proof (gaps_after _ _ _ G). subst w. cbn [gaps] in H. destruct cs as [|a cs] using rev_ind; [discriminate|clear IHcs].
      pose proof (enter_after cs a c) as EA. destruct (enter c _) as [[p w1]|]; [discriminate|]. exists cs, a, c, []. rewrite <- app_assoc. auto.
    + destruct (IH eq_refl) as (pre & a & b & post & -> & X). exists pre, a, b, (post ++ [c]). rewrite <- app_assoc. auto.
  - intros (pre & a & b & post & -> & X). destruct (gaps (pre ++ a :: b :: post) None) as [[ps w]|] eqn:G; [|reflexivity]. exfalso.
    destruct (gaps_between _ _ _ _ _ _ G) as (adj & p & _ & S). unfold separation in S.
    destruct (Nat.eqb_spec (p_line (c_end a)) (p_line (c_start b))); [lia|]. destruct S as (L & _ & S). destruct X as [X|(_ & X1 & X2)]; [lia|].
    destruct S as [[S _]|(_ & S & _)]; auto.
Qed.
