(** * Lemmas: the text of a quote some of whose words show nothing. *)
From Verif Require Import Str Tokens SpecTokens TokensRun TokensFacts AlgebraFacts Values ValuesFacts Fmt SpecFmt LayoutFacts RenderFacts
  HistoryFacts OutputFacts WriterFacts SpecFile LangBase HeaderFacts BlockFacts Macro SpecMacro MacroFacts MacroSem MacroTokens MacroLines
  MacroRender SpecWords WordsFacts SpecSilent.

Section SilentFacts.
Context {LI E : Type} (ops : lang_ops LI) (cfg : config).
Notation ind := (c_indentation cfg).
Notation stmt := (stmt LI E). Notation quoted := (quoted_item LI E). Notation leaf := (leaf LI E).
Notation bare := (map (@erase LI)).
Notation doc := (list (node LI)).
Notation acts_to := (@acts_to LI E).

(** ** Separated words *)
Fixpoint ospread (first : bool) (lvl : Z) (q : pending) (l : list (pending * option doc)) : list sym :=
  match l with
  | [] => []
  | (p, None) :: l' => ospread first lvl (requested_after q p) l'
  | (p, Some ns) :: l' =>
      let q' := requested_after q p in
      gap_text ind first (lvl + p_indent q')%Z q' ++ shown_at ops cfg (lvl + p_indent q')%Z ns ++ ospread false (lvl + p_indent q')%Z nothing l'
  end.
Fixpoint osum (l : list (pending * option doc)) : Z := match l with [] => 0 | (p, _) :: l' => p_indent p + osum l' end%Z.
Definition ofirst (l : list (pending * option doc)) : option doc := match l with (_, d) :: _ => d | [] => None end.
Definition olast (l : list (pending * option doc)) : option doc := match rev l with (_, d) :: _ => d | [] => None end.
Lemma olast_cons x y l : olast (x :: y :: l) = olast (y :: l).
Proof. unfold olast. cbn [rev]. destruct (rev l ++ [y]) as [|? ?] eqn:X; [destruct (rev l); discriminate|]. reflexivity. Qed.

Lemma after_nothing q : requested_after q nothing = q.
Proof. destruct q as [b s f i]. cbn. rewrite orb_false_r. reflexivity. Qed.
Lemma hides_code (x : quoted) e e' k : hides (LOther x) e e' -> leaf_code (LOther x) k ->
  (exists code, k = CCode code /\ acts_to code e [] e') \/ (exists f, k = CEffect f /\ e' = f e).
Proof.
  intros ((t & Q) & M) L.
  assert (K : (exists r code, quote_code [x] = Some (r, code) /\ k = CCode code) \/ (exists c f, x = QEffect c f /\ k = CEffect f)).
  { destruct x; try (left; exact L). right. eauto. }
  destruct K as [(r & code & QC & ->)|(c & f & -> & ->)].
  - left. exists code. split; [reflexivity|]. pose proof (quote_supplies [x] r code QC e) as S. rewrite M in S. unfold quote in Q. rewrite QC in Q.
    cbn [option_map snd] in Q. rewrite S in Q. assert (EE : snd (quote_mean [x] e) = e') by congruence. rewrite EE in S.
    intros t1 W. exists t1. split; [apply S|]. auto.
  - right. exists f. split; [reflexivity|]. cbn in Q. congruence.
Qed.

(** What the statements after [b] write. *)
Definition owrites (b : str) (lead : option (list act)) (code : list stmt) (e : E) (l : list (pending * option doc)) (e' : E) : Prop :=
  exists hs, acts_to code e hs e' /\ Forall (good_hact ops cfg) hs /\ hnet ops cfg hs = osum l /\
  (forall d, olast l = Some d -> ends_open ops cfg hs 0) /\ (b <> [] -> l = [] -> ends_open ops cfg hs 0) /\ (b = [] -> l = [] -> hs = []) /\
  (b <> [] -> starts ops hs) /\
  (forall d, lead = None -> ofirst l = Some d -> leads hs /\ ((exists y r, doc_items d = y :: r /\ begun ops y) -> starts ops hs)) /\
  forall first lvl q, exists x, hist ops cfg first lvl q hs =
    (match b with
     | [] => ospread first lvl q l
     | _ => gap_text ind first (lvl + p_indent q)%Z q ++ map Ch b ++ ospread false (lvl + p_indent q)%Z nothing l
     end, x).

Lemma starts_leads hs : starts ops hs -> leads hs.
Proof. intros (ns & y & r & hs' & -> & _). eexists _, _. reflexivity. Qed.

Lemma ocode ps : Forall quiet ps -> forall seps (ws : list leaf) ks ds e e', Forall2 sep_ok ps seps -> length ws = length ps ->
  Forall2 leaf_code ws ks -> all_may_show ops cfg ws e ds e' ->
  forall b, owrites b (hd None seps) (coalesce b (interleave seps ks)) e (combine (map snd ps) ds) e'.
Proof.
  induction 1 as [|[adj p1] ps Q _ IH]; intros seps ws ks ds e e' F2 LN FL SH b.
  - destruct ws; [|discriminate]. inversion F2; subst. inversion FL; subst. destruct ds; [|contradiction]. cbn in SH. subst e'. cbn [interleave coalesce map combine].
    destruct (text_acts ops cfg e b) as (hs & A & G & HS0 & HS & H). exists hs. split; [exact A|]. split; [exact G|]. split.
    { destruct b; [rewrite HS0 by reflexivity; reflexivity|rewrite HS by discriminate; reflexivity]. }
    split; [discriminate|]. split; [intros N _; rewrite HS by exact N; apply ends_open_text|]. split; [auto|].
    split; [intros N; rewrite (HS N); apply start_text; exact N|]. split; [discriminate|].
    intros first lvl q. destruct (H [] first lvl q) as [H1 H2]. rewrite app_nil_r in H1, H2. destruct b as [|c b].
    + rewrite (H1 eq_refl). eexists. reflexivity.
    + rewrite (H2 ltac:(discriminate)). cbn [hist ospread]. eexists. reflexivity.
  - destruct ws as [|w ws]; [discriminate|]. inversion F2 as [|? sep ? seps' SO F2']; subst. inversion FL as [|? k ? ks' L1 FL']; subst.
    destruct ds as [|d ds]; [contradiction|]. cbn [all_may_show] in SH. destruct SH as (e1 & S1 & SH). injection LN as LN.
    cbn [map snd combine] in *. set (l := combine (map snd ps) ds) in *.
    (* the word and what follows it, after [b0], with nothing more pending *)
    assert (W : forall b0, owrites b0 None (coalesce b0 (k :: interleave seps' ks')) e ((nothing, d) :: l) e').
    { intros b0. destruct d as [ns|].
      - destruct S1 as [S1 O1]. destruct w as [s|x].
        + destruct (shows_text ops cfg _ _ _ _ S1) as (NS & -> & ->). cbn in L1. subst k. cbn [coalesce].
          assert (NB : b0 ++ s <> []) by (destruct b0; [exact NS|discriminate]).
          destruct (IH seps' ws ks' ds e e' F2' LN FL' SH (b0 ++ s)) as (hs & A & G & HN & LO & LE & LZ & ST & _ & H). fold l in HN, LO, LE, LZ, H.
          exists hs. split; [exact A|]. split; [exact G|]. split; [cbn [osum nothing p_indent]; lia|].
          split.
          { intros d. destruct l as [|z l']; [intros _; apply LE; auto|]. rewrite olast_cons. apply LO. }
          split; [discriminate|]. split; [discriminate|]. split; [intros _; apply ST; exact NB|].
          split; [intros d _ _; split; [apply starts_leads|intros _]; apply ST; exact NB|].
          intros first lvl q. destruct (H first lvl q) as (x & X). exists x. rewrite X.
          cbn [ospread]. rewrite !after_nothing. cbn [nothing p_indent]. rewrite Z.add_0_r, gap_nothing, shown_text by exact NS.
          destruct b0 as [|c b0].
          * destruct s as [|c s]; [congruence|]. reflexivity.
          * cbn [app map]. rewrite map_app, <- !app_assoc. reflexivity.
        + destruct (shows_code ops cfg x e ns e1 k S1 L1) as (code & -> & AC). rewrite O1 in AC. cbn [Z.to_nat repeat map] in AC. cbn [coalesce].
          destruct (IH seps' ws ks' ds e1 e' F2' LN FL' SH []) as (hs & A & G & HN & LO & LE & LZ & ST & _ & H). fold l in HN, LO, LE, LZ, H.
          destruct (text_acts ops cfg e b0) as (hb & AB & GB & HB0 & HB1 & HB).
          assert (G1 : Forall (good_hact ops cfg) ([HDoc ns] ++ hs)) by (constructor; [eapply shows_good; exact S1|exact G]).
          exists (hb ++ [HDoc ns] ++ hs). split; [eapply acts_to_app; [exact G1|exact AB|eapply acts_to_app; [exact G|exact AC|exact A]]|].
          split; [apply Forall_app; auto|]. split.
          { rewrite !hnet_app. cbn [hnet hact_net osum nothing p_indent]. rewrite O1, HN.
            destruct b0; [rewrite HB0 by reflexivity|rewrite HB1 by discriminate]; cbn; lia. }
          split.
          { intros d. destruct l as [|z l'] eqn:EL; [|rewrite olast_cons; intros X; do 2 apply ends_open_app; eapply LO; exact X].
            intros _. apply ends_open_app. rewrite LZ by reflexivity. exists [], ns. repeat split; auto; lia. }
          split; [discriminate|]. split; [discriminate|]. split; [intros N; rewrite HB1 by exact N; apply starts_app, start_text; exact N|]. split.
          { intros d _ X. injection X as <-. destruct b0 as [|c b0].
            - rewrite HB0 by reflexivity. split; [eexists _, _; reflexivity|]. intros (y & r & X & Y). exists ns, y, r, hs. auto.
            - rewrite HB1 by discriminate. split; [eexists _, _; reflexivity|]. intros _. apply starts_app, start_text. discriminate. }
          intros first lvl q. destruct (HB ([HDoc ns] ++ hs) first lvl q) as [H1 H2].
          assert (X : forall first lvl q, exists x, hist ops cfg first lvl q ([HDoc ns] ++ hs) =
            (gap_text ind first (lvl + p_indent q)%Z q ++ shown_at ops cfg (lvl + p_indent q)%Z ns ++ ospread false (lvl + p_indent q)%Z nothing l, x)).
          { intros f lv p. cbn [app hist]. unfold open_levels in O1. rewrite O1, Z.add_0_r. destruct (H false (lv + p_indent p)%Z nothing) as (y & Y). rewrite Y. exists y. reflexivity. }
          cbn [ospread]. rewrite !after_nothing. destruct b0 as [|c b0].
          * rewrite (H1 eq_refl). apply X.
          * rewrite (H2 ltac:(discriminate)). destruct (X false (lvl + p_indent q)%Z nothing) as (y & Y). rewrite Y. exists y.
            cbn [nothing p_indent]. rewrite Z.add_0_r, gap_nothing. reflexivity.
      - destruct w as [s|x]; [contradiction|]. destruct (hides_code x e e1 k S1 L1) as [(code & -> & AC)|(f & -> & ->)]; cbn [coalesce].
        + destruct (IH seps' ws ks' ds e1 e' F2' LN FL' SH []) as (hs & A & G & HN & LO & LE & LZ & ST & _ & H). fold l in HN, LO, LE, LZ, H.
          destruct (text_acts ops cfg e b0) as (hb & AB & GB & HB0 & HB1 & HB).
          exists (hb ++ [] ++ hs). split; [eapply acts_to_app; [exact G|exact AB|eapply acts_to_app; [exact G|exact AC|exact A]]|].
          cbn [app]. split; [apply Forall_app; auto|]. split.
          { rewrite !hnet_app. cbn [osum nothing p_indent]. rewrite HN. destruct b0; [rewrite HB0 by reflexivity|rewrite HB1 by discriminate]; cbn; lia. }
          split.
          { intros d. destruct l as [|z l'] eqn:EL; [discriminate|]. rewrite olast_cons. intros X. apply ends_open_app. eapply LO. exact X. }
          split; [discriminate|]. split; [discriminate|]. split; [intros N; rewrite HB1 by exact N; apply starts_app, start_text; exact N|]. split; [discriminate|].
          intros first lvl q. destruct (HB hs first lvl q) as [H1 H2]. cbn [ospread]. rewrite !after_nothing. destruct b0 as [|c b0].
          * rewrite (H1 eq_refl). apply H.
          * rewrite (H2 ltac:(discriminate)). destruct (H false (lvl + p_indent q)%Z nothing) as (y & Y). rewrite Y. exists y. reflexivity.
        + destruct (IH seps' ws ks' ds (f e) e' F2' LN FL' SH b0) as (hs & A & G & HN & LO & LE & LZ & ST & _ & H). fold l in HN, LO, LE, LZ, H.
          exists hs. split; [exact A|]. split; [exact G|]. split; [cbn [osum nothing p_indent]; lia|]. split.
          { intros d. destruct l as [|z l'] eqn:EL; [discriminate|]. rewrite olast_cons. intros X. eapply LO. exact X. }
          split; [discriminate|]. split; [discriminate|]. split; [exact ST|]. split; [discriminate|].
          intros first lvl q. cbn [ospread]. rewrite !after_nothing. apply H. }
    destruct sep as [h|].
    + unfold sep_ok in SO. cbn [fst snd] in SO. destruct adj; [discriminate|]. destruct SO as (h' & X & R & RQ & _ & RA). injection X as <-.
      cbn [interleave app coalesce]. destruct (W []) as (hw & A & G & HN & LO & LE & LZ & _ & _ & H). destruct (text_acts ops cfg e b) as (hb & AB & GB & HB0 & HB1 & HB).
      assert (G1 : Forall (good_hact ops cfg) (map HReq h ++ hw)) by (apply Forall_app; split; [apply good_requests; exact R|exact G]).
      exists (hb ++ map HReq h ++ hw). split.
      { eapply acts_to_app; [exact G1|exact AB|]. eapply acts_to_app; [exact G|apply (acts_to_requests ops cfg); exact R|exact A]. }
      split; [apply Forall_app; auto|]. split.
      { rewrite !hnet_app, (requests_net _ _ _ nothing), HN. unfold requested in RQ. rewrite RQ. cbn [osum nothing p_indent].
        destruct b; [rewrite HB0 by reflexivity|rewrite HB1 by discriminate]; cbn; lia. }
      split.
      { intros d0 X. do 2 apply ends_open_app. apply (LO d0). revert X. clear. destruct l as [|z l']; [intros X; exact X|]. rewrite !olast_cons. auto. }
      split; [discriminate|]. split; [discriminate|]. split; [intros N; rewrite HB1 by exact N; apply starts_app, start_text; exact N|]. split; [discriminate|].
      assert (HH : forall first lvl q, exists x, hist ops cfg first lvl q (map HReq h ++ hw) = (ospread first lvl q ((p1, d) :: l), x)).
      { intros first lvl q. rewrite hist_requests, RA by exact R. destruct (H first lvl (requested_after q p1)) as (x & X). exists x. rewrite X.
        destruct d; cbn [ospread]; rewrite after_nothing; reflexivity. }
      intros first lvl q. destruct (HB (map HReq h ++ hw) first lvl q) as [H1 H2]. destruct b as [|c b].
      * rewrite (H1 eq_refl). apply HH.
      * rewrite (H2 ltac:(discriminate)). destruct (HH false (lvl + p_indent q)%Z nothing) as (y & Y). rewrite Y. exists y. reflexivity.
    + assert (AJ : adj = true).
      { unfold sep_ok in SO. cbn [fst] in SO. destruct adj; auto. destruct SO as (? & ? & _). discriminate. }
      subst adj. specialize (Q eq_refl). cbn [snd] in Q. subst p1. cbn [interleave app hd]. exact (W b).
Qed.

(** ** Quotes *)
Lemma all_may_show_acceptable (ws : list leaf) : forall e ds e', all_may_show ops cfg ws e ds e' -> ~ Exists (fun l => ~ acceptable l) ws.
Proof.
  induction ws as [|w ws IH]; intros e ds e' SH X; [inversion X|]. destruct ds as [|d ds]; [contradiction|]. destruct SH as (e1 & S & SH).
  inversion X as [? ? NA|? ? X']; subst; [|eapply IH; eauto]. apply NA. destruct w as [s|x]; [exists (CText s); reflexivity|].
  assert (K : exists e2 t, quote [x] e = Some (e2, t)).
  { destruct d as [ns|]; [destruct S as [(((t & Q & _) & _) & _) _]|destruct S as [(t & Q) _]]; eauto. }
  destruct K as (e2 & t & Q). unfold quote in Q. destruct (quote_code [x]) as [[r code]|] eqn:QC; [|discriminate].
  destruct x; try (exists (CCode code); exists r, code; auto; fail). exists (CEffect f). reflexivity.
Qed.
Lemma all_may_show_length (ws : list leaf) : forall e ds e', all_may_show ops cfg ws e ds e' -> length ds = length ws.
Proof. induction ws as [|w ws IH]; intros e [|d ds] e' SH; try contradiction; [reflexivity|]. destruct SH as (e1 & _ & SH). cbn. f_equal. eapply IH. exact SH. Qed.
Lemma ogaps_depth cs : forall w ps w' (ds : list (option doc)), placed w -> gaps cs w = Some (ps, w') -> length ds = length ps ->
  (Z.of_nat (depth w') = Z.of_nat (depth w) + osum (combine (map snd ps) ds))%Z.
Proof.
  intros w ps w' ds P G L. rewrite (gaps_depth cs w ps w' (map (fun _ => @nil (node LI)) ds) P G) by (rewrite map_length; exact L). f_equal. clear.
  generalize (map snd ps). intros qs. revert ds. induction qs as [|q qs IH]; intros [|d ds]; try reflexivity. cbn [map combine sum_indents osum]. rewrite IH. reflexivity.
Qed.

Lemma oquote (qs : list quoted) cs ws ds ps w e e' : map fst (all_tokens qs) = cs -> map snd (all_tokens qs) = ws ->
  gaps cs None = Some (ps, w) -> Forall quiet ps -> all_may_show ops cfg ws e ds e' ->
  exists t, quote qs e = Some (e', t) /\
  outcome (format_items ops cfg string_writer (items t) (formatter_new [])) =
    (text (c_newline cfg) (ospread true 0 nothing (combine (map snd ps) ds)), true) /\
  (forall d ds', ds = Some d :: ds' -> (exists y r, doc_items d = y :: r /\ begun ops y) -> text_first ops t) /\
  (forall d ds' d' ds'', ds = Some d :: ds' -> ds = ds'' ++ [Some d'] ->
     exists ns, items t = doc_items ns ++ closing (open_levels ops cfg ns) /\ doc_ok ns = true /\ visible_ends (doc_atoms ops cfg ns) /\
     (0 <= open_levels ops cfg ns)%Z /\ open_levels ops cfg ns = osum (combine (map snd ps) ds) /\
     forall lvl, shown_at ops cfg lvl ns = ospread false lvl nothing (combine (map snd ps) ds)).
Proof.
  intros MF MS G QU SH. pose proof (code_by_tokens qs) as C. rewrite MF, MS, G in C. unfold quote. destruct (quote_code qs) as [[r code]|].
  2:{ destruct C as [C|C]; [discriminate|]. exfalso. exact (all_may_show_acceptable ws e ds e' SH C). }
  destruct C as (ps' & w' & seps & X & F2 & ks & K1 & K2 & K3 & K4). injection X as <- <-. rewrite MS in K1.
  pose proof (gaps_length _ _ _ _ G) as LG.
  assert (LW : length ws = length ps) by (rewrite LG, <- MF, <- MS, !map_length; reflexivity).
  destruct (ocode ps QU seps ws ks ds e e' F2 LW K1 SH []) as (hs & A & GH & HN & LO & _ & _ & _ & ST & H).
  destruct (H true 0%Z nothing) as ([[f l] q] & EH). set (n := depth w) in *.
  assert (RR : requests (repeat TUnindent n)) by (apply Forall_forall; intros a Ha; apply repeat_spec in Ha as ->; discriminate).
  assert (A2 : acts_to (repeat SUnindent n) e' (map HReq (repeat TUnindent n)) e').
  { assert (MR : map act_stmt (repeat TUnindent n) = repeat (@SUnindent LI E) n) by (clear; induction n; cbn; congruence).
    rewrite <- MR. apply (acts_to_requests ops cfg); auto. }
  assert (G2 : Forall (good_hact ops cfg) (map HReq (repeat TUnindent n))) by (apply good_requests; exact RR).
  destruct (acts_to_app ops cfg _ _ _ _ _ _ _ G2 A A2 new (@new_wf LI)) as (t & X & _ & B).
  assert (LL : forall d ds', ds = Some d :: ds' -> hd None seps = None /\ ofirst (combine (map snd ps) ds) = Some d).
  { intros d ds' ->. 
    destruct cs as [|c0 cs0]; [destruct ps; [|discriminate LG]; destruct ws; [|discriminate LW]; contradiction|].
    destruct ps as [|ap ps0]; [discriminate LG|]. pose proof (gaps_first _ _ _ _ G) as X0. cbn in X0. injection X0 as ->.
    inversion F2 as [|? sep ? seps' SO F2']; subst. unfold sep_ok in SO. cbn [fst] in SO. subst sep. split; reflexivity. }
  exists t. split; [cbn [option_map snd]; rewrite K4, X; reflexivity|]. split; [|split].
  - destruct (acts_render ops cfg (hs ++ map HReq (repeat TUnindent n)) t (ospread true 0 nothing (combine (map snd ps) ds)) (f, l, fold_left (fun p a => request a p) (repeat TUnindent n) q))
      as (la & L1 & L2).
    + apply Forall_app; auto.
    + exact B.
    + rewrite hist_app, EH. pose proof (hist_requests ops cfg (repeat TUnindent n) [] f l q RR) as HR. rewrite app_nil_r in HR. rewrite HR.
      cbn [hist]. rewrite app_nil_r. reflexivity.
    + rewrite L2, <- L1. destruct (run_string_new cfg la []) as [st' [E1 E2]].
      unfold str in *. rewrite E1. unfold outcome; cbn. rewrite E2. reflexivity.
  - intros d ds' D BG. destruct (LL d ds' D) as [LN OF]. destruct (ST d LN OF) as [_ S2]. apply S2 in BG.
    eapply (starts_clean ops cfg); [|apply starts_app; exact BG|exact B]. apply Forall_app. split; assumption.
  - intros d ds' d' ds'' D D'. destruct (LL d ds' D) as [LN OF]. destruct (ST d LN OF) as [LD _].
    assert (LDS : length ds = length ps) by (rewrite (all_may_show_length _ _ _ _ SH); exact LW).
    pose proof (ogaps_depth cs None ps w ds I G LDS) as GD. cbn [depth] in GD. fold n in GD.
    assert (OL : olast (combine (map snd ps) ds) = Some d').
    { destruct (@exists_last _ ps) as (ps0 & [a p] & ->); [destruct ps; [rewrite D in LDS; discriminate|discriminate]|].
      rewrite D', !app_length in LDS. cbn [length] in LDS. rewrite D', map_app, combine_app by (rewrite map_length; lia). unfold olast. cbn [map snd combine].
      rewrite rev_app_distr. reflexivity. }
    destruct (acts_document ops cfg hs 0 n t GH LD (LO d' OL)) as (ns & N1 & N2 & N3 & N4 & N5).
    + rewrite HN. lia.
    + exact B.
    + exists ns. split; [exact N1|]. split; [exact N2|]. split; [exact N3|]. split; [lia|]. split; [lia|].
      intros lvl. destruct (H false lvl nothing) as (x & HX). exact (N5 _ _ _ HX).
Qed.

(** ** Lines *)
Notation word := (src_word LI E).
Notation hollow := (map_line (fun _ => tt)).
Definition row_pending (g : nat) : pending := mk_pending 0 (negb (g =? 0)) 0 0.
Definition row_list (ws : list (nat * option doc)) : list (pending * option doc) := map (fun '(g, d) => (row_pending g, d)) ws.
Definition line_pending (ss : list nat) (d : line_of (option doc)) : pending :=
  mk_pending (if ln_empty d =? 0 then 1 else 2) false 0 (Z.of_nat (level (ss ++ [ln_col d])) - Z.of_nat (level ss)).
Fixpoint line_list (ss : list nat) (ds : list (line_of (option doc))) : list (pending * option doc) :=
  match ds with
  | [] => []
  | d :: ds' => (line_pending ss d, ln_word d) :: row_list (ln_more d) ++ line_list (ss ++ [ln_col d]) ds'
  end.
Lemma row_combine (m : list (nat * word)) (m' : list (nat * option doc)) : map fst m = map fst m' ->
  combine (map snd (map (fun gw => row_gap (fst gw)) m)) (map snd m') = row_list m'.
Proof.
  revert m'. induction m as [|[g x] m IH]; intros [|[g' x'] m'] H; try discriminate; [reflexivity|]. cbn in H. injection H as -> H.
  cbn [map snd fst combine row_list row_gap]. f_equal. apply IH. exact H.
Qed.
Lemma row_quiet (more : list (nat * word)) : Forall quiet (map (fun gw => row_gap (fst gw)) more).
Proof.
  apply Forall_forall. intros [a p] I. apply in_map_iff in I as ([g w1] & X & _). unfold row_gap in X. injection X as <- <-. intros Q. cbn in *. rewrite Q. reflexivity.
Qed.
Lemma owords_gaps (ls : list (line_of word)) : forall (ds : list (line_of (option doc))) row frm ss, ss <> [] -> S (p_line frm) = row ->
  map hollow ls = map hollow ds -> cols_fit ss (map ln_col ls) ->
  exists ps w, gaps (map fst (word_tokens row ls)) (Some (frm, enclosing ss)) = Some (ps, w) /\
    Forall quiet ps /\ combine (map snd ps) (flat_map words_of ds) = line_list ss ds.
Proof.
  induction ls as [|l ls IH]; intros ds row frm ss N RW HO F.
  - destruct ds; [|discriminate]. exists [], (Some (frm, enclosing ss)). repeat split; constructor.
  - destruct ds as [|d ds]; [discriminate|]. cbn [map] in HO. pose proof (f_equal (@tl _) HO) as HO'. cbn [tl] in HO'.
    assert (HL : hollow l = hollow d) by congruence. apply hollow_more in HL as (HE & HC & HM).
    cbn [map] in F. destruct F as [M F]. cbn [word_tokens map fst gaps enter]. cbv zeta. cbn [map fst gaps enter]. set (rw := row + ln_empty l) in *.
    set (c := src_cursor rw (ln_col l) (ln_word l)). assert (CS : c_start c = mk_pos rw (ln_col l)) by reflexivity. rewrite CS.
    assert (LT : p_line frm < p_line (mk_pos rw (ln_col l))) by (cbn; unfold rw; lia).
    pose proof (gap_line frm (mk_pos rw (ln_col l)) ss N LT) as G. cbn [p_col] in G.
    destruct (gap frm (mk_pos rw (ln_col l)) (enclosing ss)) as [[p cols]|]; [|exfalso; apply (proj1 G); exact M].
    destruct G as [-> [[_ ->]|[X _]]]; [|exfalso; auto]. cbn [option_map].
    rewrite map_app, row_gaps.
    assert (N2 : ss ++ [ln_col l] <> []) by (destruct ss; discriminate).
    destruct (IH ds (S (p_line (row_end (c_end c) (ln_more l)))) (row_end (c_end c) (ln_more l)) _ N2 eq_refl HO' F) as (ps & w & E1 & E3 & E4).
    rewrite E1. eexists; exists w. split; [reflexivity|]. split.
    + constructor.
      * intros X. exfalso. cbn [p_line] in LT. unfold adjacent in X. cbn [fst] in X. rewrite CS in X. cbn [p_line p_col] in X. apply andb_prop in X as [X _]. apply Nat.eqb_eq in X. lia.
      * apply Forall_app. split; [apply row_quiet|exact E3].
    + cbn [map snd flat_map words_of app combine line_list]. f_equal.
      * f_equal. unfold line_pending, breaks_of. rewrite <- HE, <- HC. cbn [p_line]. unfold rw.
        destruct (Nat.eqb_spec (ln_empty l) 0); destruct (Nat.ltb_spec 1 (row + ln_empty l - p_line frm)); try lia; reflexivity.
      * rewrite map_app, combine_app by (rewrite !map_length; rewrite <- (map_length fst (ln_more l)), HM, map_length; reflexivity).
        rewrite row_combine by exact HM. rewrite E4, <- HC. reflexivity.
Qed.

Lemma after_row b s f i g : requested_after (mk_pending b s f i) (row_pending g) = mk_pending b (s || negb (g =? 0)) f i.
Proof. reflexivity. Qed.
Lemma gap_sum g g' : negb (g + g' =? 0) = negb (g =? 0) || negb (g' =? 0).
Proof. destruct g, g'; reflexivity. Qed.
Definition more_text (lvl : Z) (more : list (nat * doc)) : list sym :=
  flat_map (fun '(g, ns) => (if g =? 0 then [] else [Ch 32]) ++ shown_at ops cfg lvl ns) more.
Lemma row_shown ws : forall rest lvl f g, exists s' f', ospread false lvl (mk_pending 0 (negb (g =? 0)) f 0) (row_list ws ++ rest) =
  more_text lvl (kept g ws) ++ ospread false lvl (mk_pending 0 s' f' 0) rest.
Proof.
  induction ws as [|[g' [ns|]] ws IH]; intros rest lvl f g.
  - eexists _, _. reflexivity.
  - cbn [row_list map app ospread kept]. rewrite after_row, <- gap_sum. cbn [p_indent]. rewrite Z.add_0_r.
    destruct (IH rest lvl 0 0) as (s' & f' & X). exists s', f'. change (mk_pending 0 (negb (0 =? 0)) 0 0) with nothing in X. unfold row_list in X. rewrite X.
    unfold more_text. cbn [flat_map]. rewrite <- !app_assoc. f_equal. unfold gap_text. cbn [p_breaks p_space Nat.eqb]. destruct (g + g' =? 0); reflexivity.
  - cbn [row_list map app ospread kept]. rewrite after_row, <- gap_sum. apply IH.
Qed.
(** The words of a line after [q]. *)
Lemma row_first ws : forall rest first lvl b s f i g,
  match kept g ws with
  | [] => exists s', ospread first lvl (mk_pending b (s || negb (g =? 0)) f i) (row_list ws ++ rest) = ospread first lvl (mk_pending b s' f i) rest
  | (g1, w) :: more => exists s' f', ospread first lvl (mk_pending b (s || negb (g =? 0)) f i) (row_list ws ++ rest) =
      gap_text ind first (lvl + i)%Z (mk_pending b (s || negb (g1 =? 0)) f i) ++ shown_at ops cfg (lvl + i)%Z w ++ more_text (lvl + i)%Z more ++
      ospread false (lvl + i)%Z (mk_pending 0 s' f' 0) rest
  end.
Proof.
  induction ws as [|[g' [ns|]] ws IH]; intros rest first lvl b s f i g.
  - eexists. reflexivity.
  - cbn [row_list map app ospread kept]. rewrite after_row, <- orb_assoc, <- gap_sum. cbn [p_indent].
    destruct (row_shown ws rest (lvl + i)%Z 0 0) as (s' & f' & X). exists s', f'. change (mk_pending 0 (negb (0 =? 0)) 0 0) with nothing in X. unfold row_list in X. rewrite X.
    reflexivity.
  - cbn [row_list map app ospread kept]. rewrite after_row, <- orb_assoc, <- gap_sum. apply IH.
Qed.
Lemma row_tight ws : forall rest first lvl b s f i, kept 0 ws = [] -> Forall (fun '(g, _) => g = 0) ws ->
  ospread first lvl (mk_pending b s f i) (row_list ws ++ rest) = ospread first lvl (mk_pending b s f i) rest.
Proof.
  induction ws as [|[g [ns|]] ws IH]; intros rest first lvl b s f i K F; [reflexivity|discriminate|]. inversion F as [|? ? F1 F2]; subst.
  cbn [row_list map app ospread]. rewrite after_row. cbn [Nat.eqb negb]. rewrite orb_false_r. apply IH; assumption.
Qed.
Lemma line_row ss d q rest first lvl : ospread first lvl q ((line_pending ss d, ln_word d) :: row_list (ln_more d) ++ rest) =
  ospread first lvl (requested_after q (line_pending ss d)) (row_list (line_words d) ++ rest).
Proof.
  unfold line_words. change (row_list ((0, ln_word d) :: ln_more d) ++ rest) with ((nothing, ln_word d) :: row_list (ln_more d) ++ rest).
  destruct (ln_word d); cbn [ospread]; rewrite after_nothing; reflexivity.
Qed.

Lemma level_same ss vs : ss <> [] -> vs <> [] -> enclosing ss = enclosing vs -> level ss = level vs.
Proof. intros N1 N2 H. pose proof (level_enclosing ss N1) as L1. pose proof (level_enclosing vs N2) as L2. rewrite H in L1. lia. Qed.
Lemma enclosing_step ss vs c : enclosing ss = enclosing vs -> enclosing (ss ++ [c]) = enclosing (vs ++ [c]).
Proof. intros H. rewrite !enclosing_snoc, H. reflexivity. Qed.
Lemma enclosing_again ss vs c : enclosing ss = enclosing (vs ++ [c]) -> enclosing (ss ++ [c]) = enclosing (vs ++ [c]).
Proof.
  intros H. rewrite enclosing_snoc, H, enclosing_snoc. f_equal. cbn [filter]. rewrite Nat.ltb_irrefl. clear.
  induction (enclosing vs) as [|x l IH]; [reflexivity|]. cbn [filter]. destruct (x <? c) eqn:Q; cbn [filter]; rewrite ?Q, ?IH; reflexivity.
Qed.
Lemma snoc_some {A} (l : list A) x : l ++ [x] <> [].
Proof. destruct l; discriminate. Qed.

Lemma aligned_tail (d : line_of (option doc)) ds : aligned_empty (d :: ds) -> aligned_empty ds.
Proof. intros A before l l' a H. apply (A (d :: before) l l' a). rewrite H. reflexivity. Qed.
Lemma aligned_next (d : line_of (option doc)) ds : aligned_empty (d :: ds) -> kept_line d = None ->
  match ds with d' :: _ => ln_col d' = ln_col d | [] => True end.
Proof. intros A K. destruct ds as [|d' ds]; [exact I|]. symmetry. apply (A [] d d' ds); [reflexivity|exact K]. Qed.

(** A line after [q], which breaks the line. *)
Lemma line_after first (ss : list nat) (d : line_of (option doc)) lvl b f i rest : starts_kept d ->
  match kept_line d with
  | None => exists s', ospread first lvl (mk_pending b false f i) (row_list (line_words d) ++ rest) = ospread first lvl (mk_pending b s' f i) rest
  | Some d' => exists s' f', ospread first lvl (mk_pending b false f i) (row_list (line_words d) ++ rest) =
      gap_text ind first (lvl + i)%Z (mk_pending b false f i) ++ shown_line ops cfg (lvl + i)%Z d' ++ ospread false (lvl + i)%Z (mk_pending 0 s' f' 0) rest
  end.
Proof.
  intros S. pose proof (row_first (line_words d) rest first lvl b false f i 0) as R. change (false || negb (0 =? 0)) with false in R.
  unfold starts_kept in S. unfold kept_line. destruct (kept 0 (line_words d)) as [|[g w] more]; [exact R|]. subst g.
  destruct R as (s' & f' & R). exists s', f'. rewrite R. unfold shown_line. cbn [ln_word ln_more]. rewrite <- !app_assoc. reflexivity.
Qed.
Lemma kept_col (d : line_of (option doc)) d' : kept_line d = Some d' -> ln_col d' = ln_col d /\ ln_empty d' = ln_empty d.
Proof. unfold kept_line. destruct (kept 0 (line_words d)) as [|[g w] more]; [discriminate|]. intros H. injection H as <-. auto. Qed.
Lemma shown_relabel lvl (d : line_of doc) k : shown_line ops cfg lvl (mk_line_of k (ln_col d) (ln_word d) (ln_more d)) = shown_line ops cfg lvl d.
Proof. reflexivity. Qed.
Lemma gap_break lvl k i f : gap_text ind false lvl (mk_pending (if k =? 0 then 1 else 2) false f i) = (if k =? 0 then [NL] else [NL; NL]) ++ pad ind lvl.
Proof. unfold gap_text. cbn [p_breaks p_space]. destruct (k =? 0); cbn; rewrite app_nil_r; reflexivity. Qed.

Lemma lines_ospread ds : aligned_empty ds -> Forall starts_kept ds ->
  (forall ss vs base s f, ss <> [] -> vs <> [] -> enclosing ss = enclosing vs ->
     ospread false (base + Z.of_nat (level vs)) (mk_pending 0 s f 0) (line_list ss ds) = shown_from ops cfg base vs (kept_lines 0 ds)) /\
  (forall ss vs base s f k c, ss <> [] -> vs <> [] -> enclosing ss = enclosing (vs ++ [c]) -> match ds with d :: _ => ln_col d = c | [] => True end ->
     ospread false (base + Z.of_nat (level vs)) (mk_pending (if k =? 0 then 1 else 2) s f (Z.of_nat (level ss) - Z.of_nat (level vs))) (line_list ss ds) =
     shown_from ops cfg base vs (kept_lines k ds)).
Proof.
  induction ds as [|d ds IH]; intros A S; [split; intros; reflexivity|]. inversion S as [|? ? S1 S2]; subst.
  destruct (IH (aligned_tail _ _ A) S2) as [IHB IHC].
  assert (K : forall ss vs base f k, ss <> [] -> vs <> [] -> enclosing (ss ++ [ln_col d]) = enclosing (vs ++ [ln_col d]) ->
    ospread false (base + Z.of_nat (level vs)) (mk_pending (if k + ln_empty d =? 0 then 1 else 2) false f (Z.of_nat (level (ss ++ [ln_col d])) - Z.of_nat (level vs)))
      (row_list (line_words d) ++ line_list (ss ++ [ln_col d]) ds) = shown_from ops cfg base vs (kept_lines k (d :: ds))).
  { intros ss vs base f k N1 N2 EN. cbn [kept_lines].
    pose proof (line_after false ss d (base + Z.of_nat (level vs))%Z (if k + ln_empty d =? 0 then 1 else 2) f (Z.of_nat (level (ss ++ [ln_col d])) - Z.of_nat (level vs))%Z
      (line_list (ss ++ [ln_col d]) ds) S1) as L.
    destruct (kept_line d) as [d'|] eqn:KD.
    - destruct L as (s' & f' & ->). destruct (kept_col d d' KD) as [KC _]. rewrite gap_break. cbn [shown_from ln_col ln_empty]. rewrite shown_relabel, KC.
      rewrite <- (level_same _ _ (snoc_some ss _) (snoc_some vs _) EN).
      replace (base + Z.of_nat (level vs) + (Z.of_nat (level (ss ++ [ln_col d])) - Z.of_nat (level vs)))%Z with (base + Z.of_nat (level (ss ++ [ln_col d])))%Z by lia.
      destruct vs as [|v0 vs0] eqn:EV; [congruence|]. rewrite <- EV in *. rewrite <- !app_assoc. do 3 f_equal.
      rewrite (level_same _ _ (snoc_some ss _) (snoc_some vs _) EN). apply IHB; auto using snoc_some.
    - destruct L as (s' & ->). apply (IHC (ss ++ [ln_col d]) vs base s' f (k + ln_empty d) (ln_col d)); auto using snoc_some. apply aligned_next; assumption. }
  split.
  - intros ss vs base s f N1 N2 EN. cbn [line_list]. rewrite line_row. rewrite <- (K ss vs base (if Z.eqb (Z.of_nat (level (ss ++ [ln_col d])) - Z.of_nat (level ss)) 0 then f + (if ln_empty d =? 0 then 0 else if s then 1 else 0) else 0) 0 N1 N2) by (apply enclosing_step; exact EN).
    rewrite <- (level_same _ _ N1 N2 EN). f_equal. unfold requested_after, line_pending. cbn [p_indent p_breaks]. change (0 + ln_empty d) with (ln_empty d).
    destruct (Z.eqb_spec (Z.of_nat (level (ss ++ [ln_col d])) - Z.of_nat (level ss)) 0) as [Z0|Z0].
    + rewrite Z0. destruct (ln_empty d =? 0); cbn [request p_breaks p_frozen p_indent p_space]; rewrite ?Nat.add_0_r; reflexivity.
    + unfold change_indent. cbn [p_indent]. rewrite Z.add_0_l. destruct (Z.eqb_spec (Z.of_nat (level (ss ++ [ln_col d])) - Z.of_nat (level ss)) 0); [congruence|].
      destruct (ln_empty d =? 0); reflexivity.
  - intros ss vs base s f k c N1 N2 EN <-. cbn [line_list]. rewrite line_row.
    pose proof (enclosing_again ss vs (ln_col d) EN) as EA.
    rewrite <- (K ss vs base (f + (if ln_empty d =? 0 then 0 else if s then 1 else 0)) k N1 N2 EA).
    assert (LE : level (ss ++ [ln_col d]) = level ss) by (apply level_same; auto using snoc_some; rewrite EA, EN; reflexivity).
    f_equal. unfold requested_after, line_pending. cbn [p_indent p_breaks]. rewrite LE, Z.sub_diag. cbn [Z.eqb].
    destruct (Nat.eqb_spec (ln_empty d) 0) as [E0|E0].
    + rewrite E0, Nat.add_0_r. cbn [request p_breaks p_frozen p_indent]. rewrite Nat.add_0_r. destruct (k =? 0); reflexivity.
    + destruct (Nat.eqb_spec (k + ln_empty d) 0); [lia|]. reflexivity.
Qed.
Lemma lines_first ds : aligned_empty ds -> Forall starts_kept ds -> starts_tight ds ->
  forall ss c base b k, ss <> [] -> enclosing ss = [c] -> match ds with d :: _ => ln_col d = c | [] => True end ->
  ospread true base (mk_pending b false 0 0) (line_list ss ds) =
  match kept_lines k ds with [] => [] | d :: ds' => pad ind base ++ shown_line ops cfg base d ++ shown_from ops cfg base [ln_col d] ds' end.
Proof.
  induction ds as [|d ds IH]; intros A S T ss c base b k N EN C; [reflexivity|]. inversion S as [|? ? S1 S2]; subst. cbn [line_list]. rewrite line_row.
  assert (EA : enclosing (ss ++ [ln_col d]) = [ln_col d]) by (rewrite enclosing_snoc, EN; cbn [filter]; rewrite Nat.ltb_irrefl; reflexivity).
  assert (LE : level (ss ++ [ln_col d]) = level ss) by (apply level_same; auto using snoc_some; congruence).
  assert (Q : exists b', requested_after (mk_pending b false 0 0) (line_pending ss d) = mk_pending b' false 0 0).
  { unfold requested_after, line_pending. cbn [p_indent p_breaks]. rewrite LE, Z.sub_diag. cbn [Z.eqb]. destruct (ln_empty d =? 0); eexists; reflexivity. }
  destruct Q as (b' & ->). cbn [kept_lines]. destruct (kept_line d) as [d'|] eqn:KD.
  - pose proof (line_after true ss d base b' 0 0 (line_list (ss ++ [ln_col d]) ds) S1) as L. rewrite KD in L. destruct L as (s' & f' & ->).
    destruct (kept_col d d' KD) as [KC _]. rewrite shown_relabel, KC. cbn [ln_col]. rewrite Z.add_0_r. unfold gap_text. cbn [p_frozen p_space].
    change (blanks (0 + 0)) with (@nil sym). rewrite app_nil_r. do 2 f_equal.
    destruct (lines_ospread ds (aligned_tail _ _ A) S2) as [IHB _]. specialize (IHB (ss ++ [ln_col d]) [ln_col d] base s' f' (snoc_some _ _) ltac:(discriminate) EA).
    change (level [ln_col d]) with 0 in IHB. rewrite Z.add_0_r in IHB. exact IHB.
  - cbn [starts_tight] in T. destruct (T KD) as [T1 T2]. rewrite row_tight.
    + apply (IH (aligned_tail _ _ A) S2 T2 (ss ++ [ln_col d]) (ln_col d)); auto using snoc_some. apply aligned_next; assumption.
    + unfold kept_line in KD. destruct (kept 0 (line_words d)) as [|[? ?] ?]; [reflexivity|discriminate].
    + constructor; [reflexivity|exact T1].
Qed.

Lemma osum_app a b : osum (a ++ b) = (osum a + osum b)%Z.
Proof. induction a as [|[p d] a IH]; [reflexivity|]. cbn [app osum]. rewrite IH. lia. Qed.
Lemma row_osum ws : osum (row_list ws) = 0%Z.
Proof. induction ws as [|[g d] ws IH]; [reflexivity|]. cbn [row_list map osum row_pending p_indent]. unfold row_list in IH. rewrite IH. reflexivity. Qed.
Lemma line_osum ds : forall ss, osum (line_list ss ds) = (Z.of_nat (level (ss ++ map ln_col ds)) - Z.of_nat (level ss))%Z.
Proof.
  induction ds as [|d ds IH]; intros ss; [cbn; rewrite app_nil_r; lia|]. cbn [line_list osum map line_pending p_indent]. rewrite osum_app, row_osum, IH, <- app_assoc. cbn [app]. lia.
Qed.

Theorem silent_render (qs : list quoted) row (ls : list (line_of word)) ds e e' : all_tokens qs = word_tokens row ls -> lines_fit ls ->
  lines_may_show ops cfg ls e ds e' -> removable ds ->
  exists t, quote qs e = Some (e', t) /\
  outcome (format_items ops cfg string_writer (items t) (formatter_new [])) =
    (text (c_newline cfg) (shown_lines ops cfg [] (kept_lines 0 ds)), true) /\
  (forall d, hd None (flat_map words_of ds) = Some d -> (exists y r, doc_items d = y :: r /\ begun ops y) -> text_first ops t) /\
  (forall d d', hd None (flat_map words_of ds) = Some d -> last (flat_map words_of ds) None = Some d' ->
     exists k ks, kept_lines 0 ds = k :: ks /\
     exists ns, items t = doc_items ns ++ closing (open_levels ops cfg ns) /\ doc_ok ns = true /\ visible_ends (doc_atoms ops cfg ns) /\
     (0 <= open_levels ops cfg ns)%Z /\ open_levels ops cfg ns = Z.of_nat (level (map ln_col ds)) /\
     forall lvl, shown_at ops cfg lvl ns = shown_line ops cfg lvl k ++ shown_from ops cfg lvl [ln_col k] ks).
Proof.
  intros AT L (HO & SH) (RA & RS & RT).
  assert (G : exists ps w, gaps (map fst (word_tokens row ls)) None = Some (ps, w) /\ Forall quiet ps /\
     combine (map snd ps) (flat_map words_of ds) = match ds with [] => [] | d :: ds' => row_list (line_words d) ++ line_list [ln_col d] ds' end).
  { clear SH. destruct ls as [|l ls].
    { destruct ds; [|discriminate]. exists [], None. repeat split; constructor. }
    destruct ds as [|d ds]; [discriminate|]. cbn [map] in HO. pose proof (f_equal (@tl _) HO) as HO'. cbn [tl] in HO'.
    assert (HL : hollow l = hollow d) by congruence. apply hollow_more in HL as (HE & HC & HM).
    cbn [word_tokens map fst gaps enter]. cbv zeta. set (rw := row + ln_empty l). set (c := src_cursor rw (ln_col l) (ln_word l)). cbn [map fst gaps enter].
    change (p_col (c_start c)) with (ln_col l).
    change [ln_col l] with (enclosing [ln_col l]). rewrite map_app, row_gaps.
    assert (F : cols_fit [ln_col l] (map ln_col ls)) by (apply cols_fit_lines; [exact L|discriminate]).
    destruct (owords_gaps ls ds (S (p_line (row_end (c_end c) (ln_more l)))) (row_end (c_end c) (ln_more l)) [ln_col l] ltac:(discriminate) eq_refl HO' F)
      as (ps & w & E1 & E3 & E4).
    rewrite E1. eexists; exists w. split; [reflexivity|]. split.
    - constructor; [intros _; reflexivity|]. apply Forall_app. split; [apply row_quiet|exact E3].
    - cbn [map snd flat_map words_of app combine]. unfold line_words. cbn [row_list map app]. f_equal.
      rewrite map_app, combine_app by (rewrite !map_length; rewrite <- (map_length fst (ln_more l)), HM, map_length; reflexivity).
      rewrite row_combine by exact HM. rewrite E4, <- HC. reflexivity. }
  destruct G as (ps & w & G & Q & T).
  assert (SH' : all_may_show ops cfg (map snd (all_tokens qs)) e (flat_map words_of ds) e') by (rewrite AT, word_tokens_leaves; exact SH).
  rewrite <- AT in G. destruct (oquote qs _ _ _ ps w e e' eq_refl eq_refl G Q SH') as (t & X1 & X2 & X3 & X4). exists t. split; [exact X1|]. split; [|split].
  - rewrite X2, T. do 2 f_equal. destruct ds as [|d ds]; [reflexivity|]. inversion RS as [|? ? S1 S2]; subst. cbn [kept_lines].
    destruct (kept_line d) as [d'|] eqn:KD.
    + pose proof (line_after true [] d 0 0 0 0 (line_list [ln_col d] ds) S1) as LA. rewrite KD in LA. destruct LA as (s' & f' & LA).
      change (mk_pending 0 false 0 0) with nothing in LA. rewrite LA. rewrite Z.add_0_r. destruct (kept_col d d' KD) as [KC _].
      destruct (lines_ospread ds (aligned_tail _ _ RA) S2) as [IHB _]. specialize (IHB [ln_col d] [ln_col d] 0%Z s' f' ltac:(discriminate) ltac:(discriminate) eq_refl).
      change (level [ln_col d]) with 0 in IHB. rewrite Z.add_0_r in IHB. rewrite IHB, shown_from_0. cbn [shown_lines app ln_col]. rewrite shown_relabel, KC.
      change (level [ln_col d]) with 0. unfold gap_text. cbn [nothing p_frozen p_space]. change (blanks (0 + 0)) with (@nil sym). rewrite app_nil_r.
      change (Z.of_nat 0) with 0%Z. reflexivity.
    + cbn [starts_tight] in RT. destruct (RT KD) as [T1 T2]. unfold nothing. rewrite row_tight.
      * rewrite (lines_first ds (aligned_tail _ _ RA) S2 T2 [ln_col d] (ln_col d) 0%Z 0 (0 + ln_empty d) ltac:(discriminate) eq_refl (aligned_next _ _ RA KD)).
        destruct (kept_lines (0 + ln_empty d) ds) as [|k ks]; [reflexivity|]. cbn [shown_lines app]. change (level [ln_col k]) with 0. rewrite shown_from_0. reflexivity.
      * unfold kept_line in KD. destruct (kept 0 (line_words d)) as [|[? ?] ?]; [reflexivity|discriminate].
      * constructor; [reflexivity|exact T1].
  - intros d H BG. destruct (flat_map words_of ds) as [|x l] eqn:FM; [discriminate|]. cbn in H. subst x. eapply X3; [reflexivity|exact BG].
  - intros d d' H1 H2. destruct (flat_map words_of ds) as [|x l] eqn:FM; [discriminate|]. cbn [hd] in H1. subst x.
    destruct (X4 d l d' (removelast (Some d :: l)) eq_refl) as (ns & N1 & N2 & N3 & N4 & N5 & N6).
    { rewrite <- H2. apply app_removelast_last. discriminate. }
    destruct ds as [|d0 ds]; [discriminate|]. cbn [flat_map words_of app] in FM. injection FM as FM _. inversion RS as [|? ? S1 S2]; subst.
    assert (KD : exists k, kept_line d0 = Some k) by (unfold kept_line, line_words; cbn [kept]; rewrite FM; eauto). destruct KD as (k & KD).
    cbn [kept_lines]. rewrite KD. eexists _, _. split; [reflexivity|]. exists ns. split; [exact N1|]. split; [exact N2|]. split; [exact N3|]. split; [exact N4|].
    rewrite T in N5, N6. split.
    + rewrite N5, osum_app, row_osum, line_osum. cbn [map app]. change (level [ln_col d0]) with 0. lia.
    + intros lvl. rewrite N6. pose proof (line_after false [] d0 lvl 0 0 0 (line_list [ln_col d0] ds) S1) as LA. rewrite KD in LA. destruct LA as (s' & f' & LA).
      change (mk_pending 0 false 0 0) with nothing in LA. rewrite LA. rewrite Z.add_0_r. destruct (kept_col d0 k KD) as [KC _].
      destruct (lines_ospread ds (aligned_tail _ _ RA) S2) as [IHB _]. specialize (IHB [ln_col d0] [ln_col d0] lvl s' f' ltac:(discriminate) ltac:(discriminate) eq_refl).
      change (level [ln_col d0]) with 0 in IHB. rewrite Z.add_0_r in IHB. rewrite IHB, gap_nothing, shown_relabel. cbn [ln_col app]. rewrite KC. reflexivity.
Qed.
End SilentFacts.
