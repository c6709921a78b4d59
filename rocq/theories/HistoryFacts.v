(** * Layout of histories of calls; links and registrations. *)
From Verif Require Import Tokens SpecTokens Fmt SpecFmt FmtFacts RenderFacts WriterFacts StrFacts
  TokensRun TokensFacts AlgebraFacts Values ValuesFacts LayoutFacts.

(** ** Links do not matter for rendering *)

Section Erase.
Context {LI : Type} (ops : lang_ops LI) (cfg : config).
Notation E := (E ops cfg).

Definition erase (x : item LI) : item LI :=
  match x with
  | Lang _ l => Lang 0 l
  | Register _ l => Register 0 l
  | x => x
  end.
Notation bare := (map erase).

Definition erased (r : list atom * list (item LI) * bool) :=
  let '(l, rest, ok) := r in (l, bare rest, ok).
Lemma erased_pre l r : erased (pre l r) = pre l (erased r).
Proof. destruct r as [[? ?] ?]; reflexivity. Qed.

Lemma E_erase n : forall cursor, length cursor <= n -> forall eoc stack,
  E eoc stack (bare cursor) = erased (E eoc stack cursor).
Proof.
  induction n as [|n IH]; intros cursor Hl eoc stack.
  { destruct cursor; [|cbn in Hl; lia]. reflexivity. }
  destruct cursor as [|it rest]; [reflexivity|].
  destruct stack as [|head below]; [reflexivity|].
  cbn [length map] in *.
  destruct (plain it) eqn:P.
  { rewrite (E_plain _ _ _ _ _ it), E_plain, erased_pre, IH; auto; try lia.
    - f_equal. destruct it; auto.
    - destruct it; auto. }
  destruct it as [| | | | | | |e| | |]; try discriminate P; cbn [erase].
  - destruct (in_quote head) eqn:Q.
    + destruct e; [rewrite !E_reject_open by auto; reflexivity|].
      rewrite !E_nested by auto. rewrite IH by lia.
      pose proof (E_rest ops cfg true [mk_frame false false false] rest) as Rr.
      destruct (E true [mk_frame false false false] rest) as [[l rest'] [|]]; cbn [erased fst snd] in *; auto.
      rewrite erased_pre. f_equal. apply IH; lia.
    + rewrite !E_open, erased_pre by auto. rewrite IH by lia. auto.
  - destruct eoc; [rewrite !E_close_eoc; reflexivity|].
    destruct (in_quote head) eqn:Q.
    + rewrite !E_close, erased_pre by auto. rewrite IH by lia. auto.
    + rewrite !E_reject_close by auto. reflexivity.
  - destruct (in_quote head) eqn:Q.
    + assert (D : (exists s rest', rest = Literal s :: CloseEval :: rest') \/
         (forall s rest', rest <> Literal s :: CloseEval :: rest')).
      { clear. destruct rest as [|[s|? ?|? ?| | | |?|?| | |] [|[?|? ?|? ?| | | |?|?| | |] rest']];
          try (right; discriminate). left; eauto. }
      destruct D as [[s [rest' ->]]|D].
      * cbn [map erase]. rewrite !E_eval_literal, erased_pre by auto.
        cbn in Hl. rewrite IH; auto; lia.
      * rewrite (E_eval _ _ _ _ _ rest) by auto. rewrite E_eval; auto.
        -- rewrite erased_pre, IH by lia. auto.
        -- intros s rest' HE.
           destruct rest as [|x [|y rest]]; cbn in HE; try discriminate.
           destruct x; cbn in HE; try discriminate.
           destruct y; cbn in HE; try discriminate.
           inversion HE; subst. eapply D; reflexivity.
    + rewrite !E_reject_eval by auto. reflexivity.
  - destruct (end_on_eval head) eqn:Ee.
    + rewrite !E_close_eval, erased_pre by auto. rewrite IH by lia. auto.
    + rewrite !E_reject_close_eval by auto. reflexivity.
Qed.

Lemma format_erase {W} (wr : writer W) its st :
  format_items ops cfg wr (bare its) st = format_items ops cfg wr its st.
Proof.
  pose proof (format_items_elab ops cfg wr its st) as F1.
  pose proof (format_items_elab ops cfg wr (bare its) st) as F2.
  rewrite (E_erase (length its)) in F2 by auto.
  destruct (E false [mk_frame false false false] its) as [[l rest] ok]. cbn in F2.
  rewrite F1, F2; auto.
Qed.

Lemma graft_erase r base : map erase (graft r base) = map erase r ++ map erase base.
Proof. induction r as [|x r IH]; cbn; auto. destruct x; cbn; congruence. Qed.

(** A registration on a stream without pending whitespace changes nothing but
    the registration itself. *)
Lemma register_closed as_ cs p (l : LI) : closed (items (build as_)) ->
  map erase (filter not_register (items (build (as_ ++ CItem (Register p l) :: cs)))) =
  map erase (filter not_register (items (build (as_ ++ cs)))).
Proof.
  intros C. unfold build. unfold run. rewrite !fold_left_app. cbn [fold_left run_call].
  fold (@run LI as_ new). fold (@build LI as_).
  change (fold_left (fun t c => run_call c t) cs ?t) with (run cs t).
  rewrite !run_extend. pose proof (build_wf as_) as W.
  set (a := build as_) in *. set (xs := flat_map call_parts cs).
  rewrite (extend_closed xs a) by auto.
  rewrite (extend_closed xs (add_item (Register p l) a)).
  2:{ apply add_item_wf; auto. }
  2:{ unfold closed. cbn. intros pre x E. apply app_inj_tail in E as [_ <-]. reflexivity. }
  unfold grafted, items; cbn [ritems add_item lang_item_register].
  assert (FE : forall l : list (item LI), map erase (filter not_register l) = filter not_register (map erase l)).
  { induction l0 as [|y l0 IH]; cbn; auto. destruct y; cbn; congruence. }
  rewrite !FE, !map_rev, !graft_erase. cbn [map erase].
  rewrite !rev_app_distr. cbn [rev]. rewrite !filter_app. cbn [filter not_register].
  rewrite app_nil_r. reflexivity.
Qed.

End Erase.

(** ** Histories *)

Section History.
Context {LI : Type} (ops : lang_ops LI) (ind : indentation_kind).

(** Shape of the whitespace at the end of a stream, most recent first. *)
Definition sp (b : bool) : list (item LI) := if b then [Space] else [].
Definition shape (s : bool) (lines : list bool) (p : bool) (i : Z) : list (item LI) :=
  sp s ++ flat_map (fun b => Line :: sp b) lines ++
  (if p then [Push] else []) ++ (if Z.eqb i 0 then [] else [Indentation i]).

(** All lines but the oldest have a space below; no push below a line unless
    separated by a space. *)
Fixpoint shape_ok (lines : list bool) (p : bool) : Prop :=
  match lines with
  | [] => True
  | [b] => b = true \/ p = false
  | b :: ls => b = true /\ shape_ok ls p
  end.

Definition count (l : list bool) : nat := length (filter (fun b => b) l).

Definition state_of (s : bool) (lines : list bool) (p : bool) (i : Z) : pending :=
  mk_pending (match lines with [] => if p || negb (Z.eqb i 0) then 1 else 0 | _ => 2 end)
    s (count lines) i.

Definition base_ok (base : list (item LI)) : Prop :=
  match base with [] => True | x :: _ => is_white x = false end.

Lemma push_base base : base_ok base -> push_loop base = Push :: base.
Proof. destruct base as [|x b]; cbn; auto. destruct x; cbn; auto; discriminate. Qed.
Lemma line_base base : base_ok base -> line_loop base = Line :: base.
Proof. destruct base as [|x b]; cbn; auto. destruct x; cbn; auto; discriminate. Qed.
Lemma indentation_base base n : base_ok base ->
  indentation_loop n base = (if Z.eqb n 0 then [] else [Indentation n]) ++ base.
Proof. destruct base as [|x b]; cbn; [|destruct x; cbn; try discriminate]; destruct (Z.eqb n 0); auto. Qed.

Lemma indentation_white ws : Forall (fun x => is_white x = true) ws -> forall n base, base_ok base ->
  indentation_loop n (ws ++ base) =
  (if Z.eqb (n + net_indentation ws) 0 then [] else [Indentation (n + net_indentation ws)]) ++ base.
Proof.
  induction 1 as [|x ws Hx Hw IH]; intros n base B; cbn [app].
  - cbn [net_indentation]. rewrite Z.add_0_r. apply indentation_base; auto.
  - destruct x; try discriminate Hx; cbn [indentation_loop net_indentation indentation_of];
      rewrite IH by auto; rewrite ?Z.add_0_l; auto.
    rewrite Z.add_assoc. reflexivity.
Qed.

Lemma shape_white s lines p i : Forall (fun x => is_white x = true) (shape s lines p i).
Proof.
  unfold shape. rewrite !Forall_app. repeat split.
  - destruct s; cbn; auto.
  - induction lines as [|b ls IH]; cbn; auto. constructor; auto. apply Forall_app; split; auto.
    destruct b; cbn; auto.
  - destruct p; cbn; auto.
  - destruct (Z.eqb i 0); cbn; auto.
Qed.

Lemma net_app_i (a b : list (item LI)) : net_indentation (a ++ b) = (net_indentation a + net_indentation b)%Z.
Proof. induction a; cbn; auto. rewrite IHa. lia. Qed.

Lemma shape_net s lines p i : net_indentation (shape s lines p i) = i.
Proof.
  unfold shape. rewrite !net_app_i.
  assert (H1 : net_indentation (sp s) = 0%Z) by (destruct s; auto).
  assert (H2 : net_indentation (flat_map (fun b => Line :: sp b) lines) = 0%Z).
  { induction lines as [|b ls IH]; cbn; auto. rewrite net_app_i, IH. destruct b; auto. }
  assert (H3 : net_indentation (if p then [@Push LI] else []) = 0%Z) by (destruct p; auto).
  rewrite H1, H2, H3. destruct (Z.eqb_spec i 0); cbn; lia.
Qed.

(** One call on a shape. *)
Lemma request_shape a s lines p i base : shape_ok lines p -> base_ok base ->
  (forall t, a <> TText t) ->
  exists s' lines' p' i', shape_ok lines' p' /\
    request a (state_of s lines p i) = state_of s' lines' p' i' /\
    forall la, ritems (run_call (act_call a) (mk_tokens (shape s lines p i ++ base) la)) =
      shape s' lines' p' i' ++ base.
Proof.
  intros OK B NT.
  assert (IND : forall k, exists s' lines' p' i', shape_ok lines' p' /\
    change_indent k (state_of s lines p i) = state_of s' lines' p' i' /\
    indentation_loop k (shape s lines p i ++ base) = shape s' lines' p' i' ++ base).
  { intros k. exists false, [], false, (i + k)%Z. split; [exact I|].
    rewrite indentation_white, shape_net by (auto using shape_white).
    unfold change_indent, state_of, shape. cbn [p_indent app sp flat_map orb count filter length].
    rewrite (Z.add_comm k i).
    destruct (Z.eqb_spec (i + k) 0) as [->|]; cbn; auto. }
  destruct a as [t| | | | |]; [exfalso; eapply NT; reflexivity| | | | |]; cbn [act_call run_call request].
  - exists true, lines, p, i. split; auto. split; [reflexivity|].
    intros la. unfold space; cbn [ritems]. destruct s; [reflexivity|].
    unfold shape at 1; cbn [sp app].
    assert (H : forall la', ritems (match shape false lines p i ++ base with
       | Space :: _ => mk_tokens (shape false lines p i ++ base) la'
       | _ => vec_push Space (mk_tokens (shape false lines p i ++ base) la') end) =
       Space :: shape false lines p i ++ base).
    { intros la'. destruct (shape false lines p i ++ base) as [|x r] eqn:R; auto.
      destruct x; auto. exfalso. clear -R B. unfold shape in R; cbn in R.
      destruct lines; cbn in R; [|discriminate]. destruct p; cbn in R; [discriminate|].
      destruct (Z.eqb i 0); cbn in R; [|discriminate]. subst base. discriminate. }
    apply H.
  - exists false, lines, (match lines with [] => true | _ => p end), i.
    split; [destruct lines; auto|]. split.
    { unfold state_of; cbn. destruct lines; cbn; auto.
      destruct (p || negb (Z.eqb i 0)); auto. }
    intros la. unfold push; cbn [ritems].
    assert (S0 : push_loop (shape s lines p i ++ base) = push_loop (shape false lines p i ++ base))
      by (destruct s; reflexivity).
    rewrite S0. unfold shape; cbn [sp app].
    destruct lines as [|b ls]; [|reflexivity]. cbn [flat_map app].
    destruct p; cbn [app push_loop]; destruct (Z.eqb i 0); cbn; auto; apply push_base; auto.
  - destruct s.
    + exists false, (true :: lines), p, i. split.
      { cbn. destruct lines; auto. }
      split; [unfold state_of; cbn; unfold count; cbn; f_equal; lia|].
      intros la. reflexivity.
    + destruct lines as [|b ls].
      * exists false, [false], false, i. split; [cbn; auto|]. split; [reflexivity|].
        intros la. unfold line; cbn [ritems]. unfold shape; cbn [sp app flat_map].
        destruct p; cbn [app line_loop]; destruct (Z.eqb i 0); cbn; auto; apply line_base; auto.
      * exists false, (b :: ls), p, i. split; auto. split.
        { unfold state_of; cbn. f_equal. lia. }
        intros la. unfold line; cbn [ritems]. unfold shape; cbn [sp app flat_map].
        cbn [line_loop]. destruct b; cbn [sp app]; [reflexivity|].
        destruct ls as [|b2 ls2]; cbn in OK; [|destruct OK; discriminate].
        destruct OK as [OKp|OKp]; [discriminate|subst p]. cbn [flat_map app].
        destruct (Z.eqb i 0); cbn; auto; apply line_base; auto.
  - destruct (IND 1%Z) as [s' [l' [p' [i' [H1 [H2 H3]]]]]].
    exists s', l', p', i'. split; auto.
  - destruct (IND (-1)%Z) as [s' [l' [p' [i' [H1 [H2 H3]]]]]].
    exists s', l', p', i'. split; auto.
Qed.

(** Atoms of a shape. *)
Definition shape_atoms s lines p i : list atom := atoms ops (rev (shape s lines p i)).

Lemma atoms_app a b : atoms ops (a ++ b) = atoms ops a ++ atoms ops b.
Proof. apply flat_map_app. Qed.

Lemma net_atoms (its : list (item LI)) : net (atoms ops its) = net_indentation its.
Proof.
  induction its as [|x its IH]; cbn; auto.
  assert (NA : forall a b, net (a ++ b) = (net a + net b)%Z).
  { induction a; intros; cbn; auto. rewrite IHa; lia. }
  fold (atoms ops its). rewrite NA, IH. f_equal. destruct x; cbn; auto; try lia.
  induction (l_format_item ops l) as [|s ss IHs]; cbn; auto.
Qed.

Lemma net_rev (its : list (item LI)) : net_indentation (rev its) = net_indentation its.
Proof. induction its; cbn; auto. rewrite net_app_i, IHits; cbn. lia. Qed.

Lemma count_app a b : count_spaces (a ++ b) = count_spaces a + count_spaces b.
Proof. unfold count_spaces. rewrite filter_app, app_length; auto. Qed.

Lemma shape_atoms_eq s lines p i :
  shape_atoms s lines p i =
  (if Z.eqb i 0 then [] else [AIndent i]) ++ (if p then [APush] else []) ++
  flat_map (fun b => (if b : bool then [ASpace] else []) ++ [ALine]) (rev lines) ++
  (if s then [ASpace] else []).
Proof.
  unfold shape_atoms, shape. rewrite !rev_app_distr, !atoms_app, <- !app_assoc.
  f_equal; [destruct (Z.eqb i 0); auto|]. f_equal; [destruct p; auto|].
  f_equal; [|destruct s; auto].
  induction lines as [|b ls IH]; auto.
  cbn [flat_map rev]. rewrite flat_map_app, rev_app_distr. cbn [rev].
  rewrite !atoms_app, <- IH. f_equal. destruct b; reflexivity.
Qed.

Lemma existsb_lines f (lines : list bool) : f ALine = true -> lines <> [] ->
  existsb f (flat_map (fun b => (if b : bool then [ASpace] else []) ++ [ALine]) (rev lines)) = true.
Proof.
  intros Hf Hl. destruct lines as [|b ls]; [congruence|]. cbn [rev]. rewrite flat_map_app, existsb_app.
  cbn. rewrite app_nil_r. destruct b; cbn; rewrite Hf, ?orb_true_r; auto.
Qed.

Lemma after_last_sp f s X : f ASpace = false ->
  existsb f X = true -> (forall x X', X = X' ++ [x] -> f x = true) ->
  after_last f (X ++ (if s : bool then [ASpace] else [])) = if s then [ASpace] else [].
Proof.
  intros Hs HX HL. destruct s.
  - rewrite after_last_snoc, Hs. destruct X as [|x X _] using rev_ind; [discriminate|].
    rewrite after_last_snoc, (HL x X); auto.
  - rewrite app_nil_r. destruct X as [|x X _] using rev_ind; [discriminate|].
    rewrite after_last_snoc, (HL x X); auto.
Qed.

Lemma separator_shape first lvl s lines p i :
  separator ind first lvl (shape_atoms s lines p i) =
  gap_text ind first lvl (state_of s lines p i).
Proof.
  rewrite shape_atoms_eq. unfold separator, gap_text, state_of.
  cbn [p_space p_frozen p_breaks p_indent].
  set (I := if Z.eqb i 0 then [] else [AIndent i]). set (P := if p then [APush] else []).
  set (X := flat_map (fun b => (if b : bool then [ASpace] else []) ++ [ALine]) (rev lines)).
  assert (CI : count_spaces I = 0) by (unfold I; destruct (Z.eqb i 0); auto).
  assert (CP : count_spaces P = 0) by (unfold P; destruct p; auto).
  assert (CS : forall b : bool, count_spaces (if b then [ASpace] else []) = if b then 1 else 0)
    by (intros []; auto).
  assert (CX : count_spaces X = count lines).
  { unfold X. clear. induction lines as [|b ls IH]; auto.
    cbn [rev]. rewrite flat_map_app, count_app, IH. unfold count. cbn.
    destruct b; cbn; lia. }
  destruct first.
  { rewrite !count_app, CI, CP, CX, CS. auto. }
  assert (LI0 : existsb a_line I = false) by (unfold I; destruct (Z.eqb i 0); auto).
  assert (LP : existsb a_line P = false) by (unfold P; destruct p; auto).
  assert (LS : forall f, f ASpace = false -> existsb f (if s then [ASpace] else []) = false)
    by (intros; destruct s; cbn; rewrite ?H; auto).
  destruct lines as [|b ls].
  - cbn [rev flat_map] in X. subst X. cbn [app].
    rewrite !existsb_app, LI0, LP, LS by auto. cbn [orb].
    assert (BP : existsb a_break P = p) by (unfold P; destruct p; auto).
    assert (BI : existsb a_break I = negb (Z.eqb i 0)).
    { unfold I. destruct (Z.eqb i 0) eqn:Ei; cbn; rewrite ?Ei; auto. }
    rewrite BI, BP, LS, orb_false_r by auto. rewrite (orb_comm _ p).
    destruct (p || negb (Z.eqb i 0)) eqn:EB.
    + cbn [Nat.eqb repeat]. rewrite app_assoc. rewrite after_last_sp, CS; auto.
      * rewrite existsb_app, BI, BP, orb_comm; auto.
      * intros x X' HX. unfold I, P in HX. destruct p; cbn in HX.
        -- destruct (Z.eqb i 0); cbn in HX.
           ++ destruct X' as [|? [|? ?]]; inversion HX; auto.
           ++ destruct X' as [|? [|? [|? ?]]]; inversion HX; auto.
        -- destruct (Z.eqb i 0) eqn:Ei; cbn in HX; [discriminate|].
           destruct X' as [|? [|? ?]]; inversion HX; cbn; rewrite Ei; auto.
    + rewrite !count_app, CI, CP, CS. auto.
  - assert (EX : existsb a_line X = true) by (apply existsb_lines; auto; discriminate).
    rewrite !existsb_app, EX, LI0, LP. cbn [orb repeat Nat.eqb].
    rewrite (app_assoc P), (app_assoc I). rewrite after_last_sp, CS; auto.
    + rewrite !existsb_app, EX, !orb_true_r; auto.
    + intros x X' HX. assert (XS : exists Y, X = Y ++ [ALine]).
      { unfold X. cbn [rev]. rewrite flat_map_app. cbn [flat_map]. rewrite app_nil_r.
        rewrite app_assoc. eexists; reflexivity. }
      destruct XS as [Y XS]. rewrite XS, !app_assoc in HX.
      apply app_inj_tail in HX as [_ <-]. reflexivity.
Qed.

Lemma layout_from_invisible first lvl g l l2 : Forall (fun x => a_text x = []) l ->
  layout_from ind first lvl g (l ++ l2) = layout_from ind first lvl (g ++ l) l2.
Proof.
  intros H. revert g. induction H; intros g; cbn [app layout_from].
  - rewrite app_nil_r; auto.
  - rewrite H, IHForall, <- app_assoc; auto.
Qed.

Lemma shape_invisible s lines p i : Forall (fun x => a_text x = []) (shape_atoms s lines p i).
Proof.
  rewrite shape_atoms_eq, !Forall_app. repeat split.
  - destruct (Z.eqb i 0); auto.
  - destruct p; auto.
  - induction (rev lines) as [|b ls IH]; cbn; auto. apply Forall_app; split; auto. destruct b; cbn; auto.
  - destruct s; auto.
Qed.

Lemma shape_atoms_net s lines p i : net (shape_atoms s lines p i) = i.
Proof. unfold shape_atoms. rewrite net_atoms, net_rev, shape_net; auto. Qed.

(** The whole history. *)
Definition good_act (a : act) : Prop := match a with TText s => s <> [] | _ => True end.

Lemma history_run h : Forall good_act h -> forall first lvl s lines p i base la,
  shape_ok lines p -> base_ok base ->
  exists its, items (run (map act_call h) (mk_tokens (shape s lines p i ++ base) la)) =
    rev base ++ its /\ forallb plain its = true /\
    layout_from ind first lvl [] (atoms ops its) =
    history_from ind first lvl (state_of s lines p i) h.
Proof.
  induction 1 as [|a h Ha Hh IH]; intros first lvl s lines p i base la OK B.
  - exists (rev (shape s lines p i)). unfold items; cbn [run map fold_left ritems].
    rewrite rev_app_distr. split; auto. split.
    + pose proof (shape_white s lines p i) as W. clear -W.
      apply forallb_forall. intros x Hx. apply in_rev in Hx.
      rewrite Forall_forall in W. specialize (W x Hx). destruct x; auto; discriminate.
    + cbn [history_from]. fold (shape_atoms s lines p i).
      rewrite <- (app_nil_r (shape_atoms s lines p i)).
      rewrite layout_from_invisible by apply shape_invisible. reflexivity.
  - destruct a as [t| | | | |].
    + cbn in Ha. cbn [map act_call run fold_left run_call add_item vec_push ritems last_lang_item].
      change (fold_left _ (map act_call h) ?x) with (run (map (@act_call LI) h) x).
      destruct (IH false (lvl + i)%Z false [] false 0%Z (Literal (Box t) :: shape s lines p i ++ base) la I eq_refl)
        as [its [E1 [E2 E3]]].
      exists (rev (shape s lines p i) ++ Literal (Box t) :: its).
      unfold shape at 1 in E1. cbn [sp app flat_map Z.eqb] in E1.
      match goal with |- items ?a = _ /\ _ => change a with (run (map (@act_call LI) h) (mk_tokens (Literal (Box t) :: shape s lines p i ++ base) la)) end.
      rewrite E1.
      split; [cbn [rev]; rewrite rev_app_distr, <- !app_assoc; auto|]. split.
      * rewrite forallb_app. cbn. rewrite E2, andb_true_r.
        pose proof (shape_white s lines p i) as W. clear -W.
        apply forallb_forall. intros x Hx. apply in_rev in Hx.
        rewrite Forall_forall in W. specialize (W x Hx). destruct x; auto; discriminate.
      * cbn [history_from]. rewrite atoms_app. fold (shape_atoms s lines p i).
        rewrite layout_from_invisible by apply shape_invisible.
        cbn [atoms flat_map atoms_of app layout_from a_text content].
        destruct t as [|c t]; [congruence|].
        rewrite shape_atoms_net, separator_shape.
        fold (atoms ops its). rewrite E3. reflexivity.
    + destruct (request_shape TSpace s lines p i base OK B ltac:(discriminate)) as [s' [l' [p' [i' [H1 [H2 H3]]]]]].
      cbn [history_from]. rewrite H2. specialize (H3 la).
      cbn [map run fold_left]. change (fold_left _ (map act_call h) ?x) with (run (map (@act_call LI) h) x).
      destruct (run_call (act_call TSpace) _) as [ri la']. cbn [ritems] in H3. subst ri. apply IH; auto.
    + destruct (request_shape TPush s lines p i base OK B ltac:(discriminate)) as [s' [l' [p' [i' [H1 [H2 H3]]]]]].
      cbn [history_from]. rewrite H2. specialize (H3 la).
      cbn [map run fold_left]. change (fold_left _ (map act_call h) ?x) with (run (map (@act_call LI) h) x).
      destruct (run_call (act_call TPush) _) as [ri la']. cbn [ritems] in H3. subst ri. apply IH; auto.
    + destruct (request_shape TLine s lines p i base OK B ltac:(discriminate)) as [s' [l' [p' [i' [H1 [H2 H3]]]]]].
      cbn [history_from]. rewrite H2. specialize (H3 la).
      cbn [map run fold_left]. change (fold_left _ (map act_call h) ?x) with (run (map (@act_call LI) h) x).
      destruct (run_call (act_call TLine) _) as [ri la']. cbn [ritems] in H3. subst ri. apply IH; auto.
    + destruct (request_shape TIndent s lines p i base OK B ltac:(discriminate)) as [s' [l' [p' [i' [H1 [H2 H3]]]]]].
      cbn [history_from]. rewrite H2. specialize (H3 la).
      cbn [map run fold_left]. change (fold_left _ (map act_call h) ?x) with (run (map (@act_call LI) h) x).
      destruct (run_call (act_call TIndent) _) as [ri la']. cbn [ritems] in H3. subst ri. apply IH; auto.
    + destruct (request_shape TUnindent s lines p i base OK B ltac:(discriminate)) as [s' [l' [p' [i' [H1 [H2 H3]]]]]].
      cbn [history_from]. rewrite H2. specialize (H3 la).
      cbn [map run fold_left]. change (fold_left _ (map act_call h) ?x) with (run (map (@act_call LI) h) x).
      destruct (run_call (act_call TUnindent) _) as [ri la']. cbn [ritems] in H3. subst ri. apply IH; auto.
Qed.

Lemma history_build h : Forall good_act h ->
  forallb plain (items (@build LI (map act_call h))) = true /\
  layout ind (atoms ops (items (build (map act_call h)))) = history_layout ind h.
Proof.
  intros H. destruct (history_run h H true 0%Z false [] false 0%Z [] 0 I I) as [its [E1 [E2 E3]]].
  cbn in E1. change (run (map act_call h) (mk_tokens [] 0)) with (@build LI (map act_call h)) in E1.
  rewrite E1. auto.
Qed.

End History.
