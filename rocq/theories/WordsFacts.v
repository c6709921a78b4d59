(** * Lemmas: the text of a quote of words and interpolated values. *)
From Verif Require Import Str Tokens SpecTokens TokensRun TokensFacts AlgebraFacts Values ValuesFacts Fmt SpecFmt LayoutFacts RenderFacts
  HistoryFacts OutputFacts WriterFacts SpecFile LangBase HeaderFacts BlockFacts Macro SpecMacro MacroFacts MacroSem MacroTokens MacroLines
  MacroRender SpecWords.

Section WordsFacts.
Context {LI E : Type} (ops : lang_ops LI) (cfg : config).
Notation ind := (c_indentation cfg).
Notation stmt := (stmt LI E). Notation quoted := (quoted_item LI E). Notation leaf := (leaf LI E).
Notation bare := (map (@erase LI)).
Notation atoms_in := (doc_atoms ops cfg).

(** ** Code that acts as [hs], up to links *)
Lemma bare_push (r : list (item LI)) : bare (push_loop r) = push_loop (bare r).
Proof. induction r as [|x r IH]; [reflexivity|]. destruct x; cbn; auto. Qed.
Lemma bare_line (r : list (item LI)) : bare (line_loop r) = line_loop (bare r).
Proof. induction r as [|x r IH]; [reflexivity|]. destruct x; cbn; auto. Qed.
Lemma bare_indentation (r : list (item LI)) : forall n, bare (indentation_loop n r) = indentation_loop n (bare r).
Proof. induction r as [|x r IH]; intros n; [cbn; destruct (Z.eqb n 0); reflexivity|]. destruct x; cbn; auto; destruct (Z.eqb n 0); reflexivity. Qed.
Lemma bare_space r la : bare (ritems (space (mk_tokens r la))) = ritems (space (mk_tokens (bare r) 0)).
Proof. unfold space. cbn. destruct r as [|[] r]; reflexivity. Qed.
Lemma hrun_bare hs : Forall (good_hact ops cfg) hs -> forall r1 r2, bare r1 = bare r2 -> bare (hrun hs r1) = bare (hrun hs r2).
Proof.
  induction 1 as [|h hs G _ IH]; intros r1 r2 Q; [exact Q|]. cbn [hrun fold_left]. apply IH. destruct h as [ns|a]; cbn [hrun1].
  - rewrite !map_app, Q. reflexivity.
  - destruct a; try (exfalso; eapply G; reflexivity); cbn [act_call run_call].
    + rewrite !bare_space, Q. reflexivity.
    + unfold push. cbn [ritems]. rewrite !bare_push, Q. reflexivity.
    + unfold line. cbn [ritems]. rewrite !bare_line, Q. reflexivity.
    + unfold indent, indentation. cbn [ritems]. rewrite !bare_indentation, Q. reflexivity.
    + unfold unindent, indentation. cbn [ritems]. rewrite !bare_indentation, Q. reflexivity.
Qed.

Definition acts_to (code : list stmt) (e : E) (hs : list (@hact LI)) (e' : E) : Prop :=
  forall t, wf t -> exists t', execs code (e, t) = (e', t') /\ wf t' /\ bare (ritems t') = bare (hrun hs (ritems t)).
Lemma acts_to_nil e : acts_to [] e [] e.
Proof. intros t W. exists t. repeat split; try apply W. Qed.
Lemma acts_to_app c1 c2 e1 e2 e3 h1 h2 : Forall (good_hact ops cfg) h2 -> acts_to c1 e1 h1 e2 -> acts_to c2 e2 h2 e3 ->
  acts_to (c1 ++ c2) e1 (h1 ++ h2) e3.
Proof.
  intros G A B t W. destruct (A t W) as (t1 & X1 & W1 & Q1). destruct (B t1 W1) as (t2 & X2 & W2 & Q2).
  exists t2. split; [rewrite execs_app, X1; exact X2|]. split; [exact W2|]. rewrite Q2, hrun_app. apply hrun_bare; auto.
Qed.
Lemma exec_wf_static s (t : tokens LI) : wf t -> wf (append (VItemStr (Static s)) t).
Proof. intros W. apply (add_item_wf (Literal (Static s))). exact W. Qed.
Lemma acts_to_static e s : acts_to [SStatic s] e [h_text (Static s)] e.
Proof. intros t W. exists (append (VItemStr (Static s)) t). split; [reflexivity|]. split; [apply exec_wf_static; exact W|reflexivity]. Qed.
Lemma acts_to_request e a : (forall s, a <> TText s) -> acts_to [act_stmt a] e [HReq a] e.
Proof.
  intros N t W. destruct a; try (exfalso; eapply N; reflexivity).
  - exists (space t). split; [reflexivity|]. split; [apply (add_item_wf Space); exact W|]. destruct t as [[|[] r] la]; reflexivity.
  - exists (push t). split; [reflexivity|]. split; [apply (add_item_wf Push); exact W|]. reflexivity.
  - exists (line t). split; [reflexivity|]. split; [apply (add_item_wf Line); exact W|]. reflexivity.
  - exists (indent t). split; [reflexivity|]. split; [apply (add_item_wf (Indentation 1)); exact W|]. reflexivity.
  - exists (unindent t). split; [reflexivity|]. split; [apply (add_item_wf (Indentation (-1))); exact W|]. reflexivity.
Qed.
Lemma acts_to_requests e h : requests h -> acts_to (map act_stmt h) e (map HReq h) e.
Proof.
  induction 1 as [|a h N R IH]; [apply acts_to_nil|]. change (map act_stmt (a :: h)) with ([@act_stmt LI E a] ++ map act_stmt h).
  change (map HReq (a :: h)) with ([@HReq LI a] ++ map HReq h). eapply acts_to_app; [apply good_requests; exact R|apply acts_to_request; exact N|exact IH].
Qed.

(** ** Elements *)
Lemma shows_good (l : leaf) e ns e' : shows ops cfg l e ns e' -> good_hact ops cfg (HDoc ns).
Proof.
  intros (_ & D & V & _). split; [exact D|]. split; [|exact V].
  destruct (last_item ops cfg ns (doc_items ns) D eq_refl V) as (r & x & H & N). exists r, x. auto.
Qed.
Lemma shows_text s e ns e' : shows ops cfg (@LText LI E s) e ns e' -> s <> [] /\ e' = e /\ ns = [NItem (Literal (Static s))].
Proof.
  intros ((-> & ->) & _ & ((a & l & H & V) & _) & _). split; [|auto]. cbn in H. injection H as <- <-. intros ->. discriminate.
Qed.
Notation open_acts n := (map (@HReq LI) (repeat TUnindent (Z.to_nat n))).
Lemma good_open n : Forall (good_hact ops cfg) (open_acts n).
Proof. apply good_requests. apply Forall_forall. intros a H. apply repeat_spec in H as ->. discriminate. Qed.
Lemma hrun_open n (x : item LI) r : (0 <= n)%Z -> is_white x = false -> hrun (open_acts n) (x :: r) = rev (closing n) ++ x :: r.
Proof.
  intros N W. unfold closing.
  assert (X : forall m k, (0 <= k)%Z -> hrun (map (@HReq LI) (repeat TUnindent m)) ((if Z.eqb k 0 then [] else [Indentation (- k)]) ++ x :: r) =
     (if Z.eqb (k + Z.of_nat m) 0 then [] else [Indentation (- (k + Z.of_nat m))]) ++ x :: r).
  { induction m as [|m IH]; intros k K.
    - rewrite Z.add_0_r. reflexivity.
    - cbn [repeat map hrun fold_left]. change (fold_left hrun1 ?l ?a) with (hrun l a).
      assert (Y : hrun1 ((if Z.eqb k 0 then [] else [Indentation (- k)]) ++ x :: r) (HReq TUnindent) = (if Z.eqb (k + 1) 0 then [] else [Indentation (- (k + 1))]) ++ x :: r).
      { cbn [hrun1 act_call run_call]. unfold unindent, indentation. cbn [ritems]. destruct (Z.eqb_spec (k + 1) 0); [lia|]. destruct (Z.eqb_spec k 0) as [->|K0]; cbn [app].
        - destruct x; try discriminate W; reflexivity.
        - cbn [indentation_loop]. replace (-1 + - k)%Z with (- (k + 1))%Z by lia.
          replace (- k + -1)%Z with (- (k + 1))%Z by lia.
          destruct x; try discriminate W; cbn [indentation_loop]; destruct (Z.eqb_spec (- (k + 1)) 0); try lia; reflexivity. }
      rewrite Y, IH by lia. replace (k + 1 + Z.of_nat m)%Z with (k + Z.of_nat (S m))%Z by lia. reflexivity. }
  specialize (X (Z.to_nat n) 0%Z ltac:(lia)). cbn [Z.eqb app] in X. rewrite X, Z.add_0_l, Z2Nat.id by exact N. destruct (Z.eqb n 0); reflexivity.
Qed.
Lemma shows_code (x : quoted) e ns e' k : shows ops cfg (LOther x) e ns e' -> leaf_code (LOther x) k ->
  exists code, k = CCode code /\ acts_to code e (HDoc ns :: open_acts (open_levels ops cfg ns)) e'.
Proof.
  intros (((t & Q & IT) & (y & its & M & NW)) & D & V & OL) L.
  assert (NE : forall c f, x <> QEffect c f).
  { intros c f ->. cbn in Q. injection Q as _ <-. cbn in IT. 
    destruct (first_item ops cfg ns (doc_items ns) D eq_refl V) as (z & r & H & _). rewrite H in IT. discriminate. }
  assert (K : exists r code, quote_code [x] = Some (r, code) /\ k = CCode code).
  { destruct x; try exact L. exfalso. eapply NE. reflexivity. }
  destruct K as (r & code & QC & ->). exists code. split; [reflexivity|].
  pose proof (quote_supplies [x] r code QC e) as S. rewrite M in S.
  unfold quote in Q. rewrite QC in Q. cbn [option_map snd] in Q. rewrite S in Q.
  assert (EE : snd (quote_mean [x] e) = e') by congruence. assert (ET : extend (y :: its) new = t) by congruence. rewrite EE in S. clear Q EE.
  intros t1 W. exists (extend (y :: its) t1). split; [apply S|]. split; [apply extend_wf; exact W|].
  assert (G : forall t0 : tokens LI, wf t0 -> bare (ritems (extend (y :: its) t0)) = bare (ritems (from_iter its)) ++ erase y :: bare (ritems t0)).
  { intros t0 W0. cbn [extend fold_left]. change (fold_left _ its ?a) with (extend its a). rewrite extend_closed.
    - unfold grafted. cbn [ritems]. rewrite graft_erase. f_equal. destruct y; try discriminate NW; reflexivity.
    - apply add_item_wf. exact W0.
    - unfold closed, items. intros pre z EQ. destruct y; try discriminate NW; cbn in EQ; apply app_inj_tail in EQ as [_ <-]; reflexivity. }
  rewrite (G t1 W). cbn [hrun fold_left hrun1]. change (fold_left hrun1 ?l ?a) with (hrun l a).
  destruct (last_item ops cfg ns (doc_items ns) D eq_refl V) as (r0 & z & EZ & NZ).
  assert (RZ : rev (doc_items ns) = z :: rev r0) by (rewrite EZ, rev_app_distr; reflexivity).
  rewrite RZ. cbn [app]. rewrite hrun_open by assumption. rewrite app_comm_cons, <- RZ, app_assoc, <- rev_app_distr, map_app. rewrite <- IT, <- ET. unfold items. rewrite rev_involutive.
  rewrite (G new (@new_wf LI)). cbn [ritems new map]. rewrite <- app_assoc. reflexivity.
Qed.
(** What is pending after a document that leaves [n] levels open. *)
Definition pending_open (n : Z) : pending := if Z.eqb n 0 then nothing else left_open n.
Lemma pending_open_requests n : (0 <= n)%Z -> fold_left (fun p a => request a p) (repeat TUnindent (Z.to_nat n)) nothing = pending_open n.
Proof.
  intros N. assert (X : forall m k, (0 <= k)%Z -> fold_left (fun p a => request a p) (repeat TUnindent m) (pending_open k) = pending_open (k + Z.of_nat m)).
  { induction m as [|m IH]; intros k K; [rewrite Z.add_0_r; reflexivity|]. cbn [repeat fold_left].
    assert (Y : request TUnindent (pending_open k) = pending_open (k + 1)).
    { unfold pending_open, left_open. cbn [request]. unfold change_indent. destruct (Z.eqb_spec (k + 1) 0); [lia|].
      destruct (Z.eqb_spec k 0) as [->|K0]; [reflexivity|]. cbn [p_indent]. destruct (Z.eqb_spec (- k + -1) 0); [lia|]. f_equal. lia. }
    rewrite Y, IH by lia. f_equal. lia. }
  specialize (X (Z.to_nat n) 0%Z ltac:(lia)). rewrite Z2Nat.id in X by exact N. exact X.
Qed.
Lemma hist_shown ns rest first lvl p : (0 <= open_levels ops cfg ns)%Z -> hist ops cfg first lvl p (HDoc ns :: open_acts (open_levels ops cfg ns) ++ rest) =
  let '(out, e) := hist ops cfg false (lvl + p_indent p + open_levels ops cfg ns)%Z (pending_open (open_levels ops cfg ns)) rest in
  (gap_text ind first (lvl + p_indent p)%Z p ++ shown_at ops cfg (lvl + p_indent p)%Z ns ++ out, e).
Proof.
  intros N. cbn [hist]. rewrite hist_requests by (apply Forall_forall; intros a H; apply repeat_spec in H as ->; discriminate).
  rewrite pending_open_requests by exact N. reflexivity.
Qed.
Lemma shown_text lvl s : s <> [] -> shown_at ops cfg lvl [NItem (Literal (Static s))] = map Ch s.
Proof.
  intros N. unfold shown_at, doc_atoms. cbn [flat_map node_atoms atoms_of content app layout_from a_text]. destruct s; [congruence|].
  cbn [net separator existsb count_spaces filter length blanks repeat app layout_from]. rewrite app_nil_r. reflexivity.
Qed.

(** ** The code of separated words *)
Fixpoint spread (first : bool) (lvl : Z) (l : list (pending * list (node LI))) : list sym :=
  match l with
  | [] => []
  | (p, ns) :: l' =>
      gap_text ind first (lvl + p_indent p)%Z p ++ shown_at ops cfg (lvl + p_indent p)%Z ns ++ spread false (lvl + p_indent p)%Z l'
  end.
Lemma gap_nothing lvl : gap_text ind false lvl nothing = [].
Proof. reflexivity. Qed.
Lemma text_acts e b : exists hs, acts_to (text_code b) e hs e /\ Forall (good_hact ops cfg) hs /\ (b = [] -> hs = []) /\ (b <> [] -> hs = [h_text (Static b)]) /\
  forall rest first lvl p, (b = [] -> hist ops cfg first lvl p (hs ++ rest) = hist ops cfg first lvl p rest) /\
  (b <> [] -> hist ops cfg first lvl p (hs ++ rest) = let '(out, x) := hist ops cfg false (lvl + p_indent p)%Z nothing rest in
    (gap_text ind first (lvl + p_indent p)%Z p ++ map Ch b ++ out, x)).
Proof.
  destruct b as [|c b].
  - exists []. split; [apply acts_to_nil|]. split; [constructor|]. split; [auto|]. split; [congruence|]. intros. split; [reflexivity|congruence].
  - exists [h_text (Static (c :: b))]. split; [apply acts_to_static|]. split; [constructor; [apply good_text; discriminate|constructor]|].
    split; [discriminate|]. split; [auto|]. intros. split; [discriminate|]. intros N. apply hist_text. exact N.
Qed.

(** The first document begins with text. *)
Definition begun (y : item LI) : Prop := begins_text (l_format_item ops) y.
Definition starts (hs : list (@hact LI)) : Prop := exists ns y r hs', hs = HDoc ns :: hs' /\ doc_items ns = y :: r /\ begun y.
Lemma starts_app a b : starts a -> starts (a ++ b).
Proof. intros (ns & y & r & hs & -> & H). exists ns, y, r, (hs ++ b). auto. Qed.

(** Documents that leave levels open are followed by separations that close them. *)
Definition closed_by (n : Z) (l : list (pending * list (node LI))) : Prop :=
  match l with [] => True | (p, _) :: _ => n = 0%Z \/ closes_first n p end.
Fixpoint chained (l : list (pending * list (node LI))) : Prop :=
  match l with [] => True | (_, d) :: l' => closed_by (open_levels ops cfg d) l' /\ chained l' end.

(** Change of level by acts. *)
Definition hact_net (h : @hact LI) : Z :=
  match h with HDoc ns => open_levels ops cfg ns | HReq TIndent => 1 | HReq TUnindent => -1 | HReq _ => 0 end%Z.
Fixpoint hnet (hs : list (@hact LI)) : Z := match hs with [] => 0 | h :: hs' => hact_net h + hnet hs' end%Z.
Lemma hnet_app a b : hnet (a ++ b) = (hnet a + hnet b)%Z.
Proof. induction a as [|h a IH]; [reflexivity|]. cbn [app hnet]. rewrite IH. lia. Qed.
Lemma request_net a p : p_indent (request a p) = (p_indent p + hact_net (HReq a))%Z.
Proof. destruct a; cbn [request hact_net p_indent]; try lia; unfold change_indent; destruct (Z.eqb_spec (p_indent p + 1) 0); destruct (Z.eqb_spec (p_indent p + -1) 0); cbn; lia. Qed.
Lemma requests_net h : forall p, hnet (map HReq h) = (p_indent (fold_left (fun p a => request a p) h p) - p_indent p)%Z.
Proof. induction h as [|a h IH]; intros p; [cbn; lia|]. cbn [map hnet fold_left]. rewrite (IH (request a p)), request_net. lia. Qed.
Lemma hist_net hs : forall first lvl p out f l q, hist ops cfg first lvl p hs = (out, (f, l, q)) -> (l + p_indent q = lvl + p_indent p + hnet hs)%Z.
Proof.
  induction hs as [|[ns|a] hs IH]; intros first lvl p out f l q H; cbn [hist hnet] in *.
  - injection H as _ _ <- <-. lia.
  - destruct (hist ops cfg false _ nothing hs) as [o [[f1 l1] q1]] eqn:X. injection H as _ _ <- <-. apply IH in X. cbn [nothing p_indent] in X.
    cbn [hact_net]. unfold open_levels. lia.
  - apply IH in H. rewrite request_net in H. lia.
Qed.
Fixpoint sum_indents (l : list (pending * list (node LI))) : Z := match l with [] => 0 | (p, _) :: l' => p_indent p + sum_indents l' end%Z.
(** The last act shows a document that leaves [n] levels open. *)
Definition ends_open (hs : list (@hact LI)) (n : Z) : Prop :=
  exists hs0 ns, hs = hs0 ++ HDoc ns :: open_acts n /\ open_levels ops cfg ns = n /\ (0 <= n)%Z.
Lemma ends_open_app a hs n : ends_open hs n -> ends_open (a ++ hs) n.
Proof. intros (h0 & ns & -> & H). exists (a ++ h0), ns. rewrite <- app_assoc. auto. Qed.
Lemma ends_open_text b : ends_open [h_text (Static b)] 0.
Proof. exists [], [NItem (Literal (Static b))]. repeat split. lia. Qed.
Definition last_open (l : list (pending * list (node LI))) : Z := match rev l with [] => 0 | (_, d) :: _ => open_levels ops cfg d end%Z.
Lemma last_open_cons x y l : last_open (x :: y :: l) = last_open (y :: l).
Proof. unfold last_open. cbn [rev]. destruct (rev l ++ [y]) as [|? ?] eqn:X; [destruct (rev l); discriminate|]. reflexivity. Qed.
Definition leads (hs : list (@hact LI)) : Prop := exists ns hs', hs = HDoc ns :: hs'.
Lemma leads_app a b : leads a -> leads (a ++ b).
Proof. intros (ns & hs & ->). exists ns, (hs ++ b). reflexivity. Qed.
Definition well_ended (b : str) (lead : option (list act)) (hs : list (@hact LI)) (l : list (pending * list (node LI))) : Prop :=
  hnet hs = sum_indents l /\ (b <> [] \/ l <> [] -> ends_open hs (last_open l)) /\ (b <> [] \/ lead = None /\ l <> [] -> leads hs) /\
  (b = [] -> l = [] -> hs = []).

(** What the statements after [b] write. *)
Definition writes_after (b : str) (lead : option (list act)) (code : list stmt) (e : E) (l : list (pending * list (node LI))) (e' : E) : Prop :=
  exists hs, acts_to code e hs e' /\ Forall (good_hact ops cfg) hs /\ well_ended b lead hs l /\
  (b <> [] -> starts hs) /\
  (lead = None -> match l with (_, d) :: _ => (exists y r, doc_items d = y :: r /\ begun y) -> starts hs | [] => True end) /\
  (b <> [] -> forall first lvl p, exists x, hist ops cfg first lvl p hs =
     (gap_text ind first (lvl + p_indent p)%Z p ++ map Ch b ++ spread false (lvl + p_indent p)%Z l, x)) /\
  (b = [] -> forall first lvl, exists x, hist ops cfg first lvl nothing hs = (spread first lvl l, x)) /\
  (b = [] -> forall lvl n, (0 < n)%Z -> closed_by n l -> exists x, hist ops cfg false (lvl + n)%Z (left_open n) hs = (spread false lvl l, x)).

Lemma start_text s : s <> [] -> starts [h_text (Static s)].
Proof. intros N. exists [NItem (Literal (Static s))], (Literal (Static s)), [], []. repeat split. exact N. Qed.

Lemma words_code ps : Forall quiet ps -> forall seps (ws : list leaf) ks ds e e', Forall2 sep_ok ps seps -> length ws = length ps ->
  Forall2 leaf_code ws ks -> all_show ops cfg ws e ds e' -> chained (combine (map snd ps) ds) ->
  forall b, writes_after b (hd None seps) (coalesce b (interleave seps ks)) e (combine (map snd ps) ds) e'.
Proof.
  induction 1 as [|[adj p1] ps Q _ IH]; intros seps ws ks ds e e' F2 LN FL SH CH b.
  - destruct ws; [|discriminate]. inversion F2; subst. inversion FL; subst. destruct ds; [|contradiction]. cbn in SH. subst e'. cbn [interleave coalesce map combine].
    destruct (text_acts e b) as (hs & A & G & HS0 & HS & H). exists hs. split; [exact A|]. split; [exact G|]. split.
    { destruct b as [|c0 b].
      - rewrite HS0 by reflexivity. split; [reflexivity|]. split; [intros [X|X]; congruence|]. split; [intros [X|[_ X]]; congruence|auto].
      - rewrite HS by discriminate. split; [reflexivity|]. split; [intros _; apply ends_open_text|]. split; [|discriminate]. intros _. eexists _, _. reflexivity. }
    split.
    { intros N. rewrite (HS N). apply start_text. exact N. }
    split; [auto|]. split.
    + intros N first lvl p. destruct (H [] first lvl p) as [_ H2]. rewrite app_nil_r in H2. rewrite (H2 N). cbn [hist spread]. eexists. reflexivity.
    + split.
      * intros -> first lvl. destruct (H [] first lvl nothing) as [H1 _]. rewrite app_nil_r in H1. rewrite (H1 eq_refl). cbn. eexists. reflexivity.
      * intros -> lvl n N _. destruct (H [] false (lvl + n)%Z (left_open n)) as [H1 _]. rewrite app_nil_r in H1. rewrite (H1 eq_refl). cbn. eexists. reflexivity.
  - destruct ws as [|w ws]; [discriminate|]. inversion F2 as [|? sep ? seps' SO F2']; subst. inversion FL as [|? k ? ks' L1 FL']; subst.
    destruct ds as [|d ds]; [contradiction|]. cbn [all_show] in SH. destruct SH as (e1 & S1 & SH). injection LN as LN.
    cbn [map snd combine chained] in *. destruct CH as [CB CH].
    (* the word and what follows it, after [b0] *)
    assert (W : forall b0, exists hs, acts_to (coalesce b0 (k :: interleave seps' ks')) e hs e' /\ Forall (good_hact ops cfg) hs /\
      (hnet hs = sum_indents (combine (map snd ps) ds) /\ ends_open hs (last_open ((p1, d) :: combine (map snd ps) ds)) /\ leads hs) /\
      (b0 <> [] \/ (exists y r, doc_items d = y :: r /\ begun y) -> starts hs) /\
      forall first lvl p, exists x, hist ops cfg first lvl p hs =
        (gap_text ind first (lvl + p_indent p)%Z p ++ map Ch b0 ++ shown_at ops cfg (lvl + p_indent p)%Z d ++
         spread false (lvl + p_indent p)%Z (combine (map snd ps) ds), x)).
    { intros b0. destruct w as [s|x].
      - destruct (shows_text _ _ _ _ S1) as (NS & -> & ->). cbn in L1. subst k. cbn [coalesce].
        assert (NB : b0 ++ s <> []) by (destruct b0; [exact NS|discriminate]).
        destruct (IH seps' ws ks' ds e e' F2' LN FL' SH CH (b0 ++ s)) as (hs & A & G & (W1 & W2 & W3 & W4) & ST & _ & H & _). exists hs. split; [exact A|]. split; [exact G|]. split.
        { split; [exact W1|]. split; [|apply W3; left; exact NB]. specialize (W2 (or_introl NB)). destruct (combine (map snd ps) ds) as [|z l']; [exact W2|]. rewrite last_open_cons. exact W2. }
        split; [intros _; apply ST; exact NB|].
        intros first lvl p. destruct (H NB first lvl p) as (x & X). exists x. rewrite X, shown_text, map_app, <- !app_assoc by exact NS. reflexivity.
      - destruct (shows_code x e d e1 k S1 L1) as (code & -> & AC). cbn [coalesce].
        destruct (IH seps' ws ks' ds e1 e' F2' LN FL' SH CH []) as (hs & A & G & (W1 & W2 & W3 & W4) & _ & _ & _ & H & H').
        destruct (text_acts e b0) as (hb & AB & GB & HB0 & HB1 & HB).
        assert (G1 : Forall (good_hact ops cfg) ((HDoc d :: open_acts (open_levels ops cfg d)) ++ hs))
          by (constructor; [eapply shows_good; exact S1|apply Forall_app; split; [apply good_open|exact G]]).
        exists (hb ++ (HDoc d :: open_acts (open_levels ops cfg d)) ++ hs). split.
        { eapply acts_to_app; [exact G1|exact AB|]. eapply acts_to_app; [exact G|exact AC|exact A]. }
        split; [apply Forall_app; auto|]. split.
        { assert (NO : hnet (open_acts (open_levels ops cfg d)) = (- open_levels ops cfg d)%Z).
          { rewrite (requests_net _ nothing), pending_open_requests by apply S1. unfold pending_open, left_open.
            destruct (Z.eqb_spec (open_levels ops cfg d) 0) as [->|Z0]; cbn; lia. }
          assert (NB : hnet hb = 0%Z).
          { destruct b0 as [|c0 b0]; [rewrite HB0 by reflexivity; reflexivity|rewrite HB1 by discriminate; reflexivity]. }
          split.
          { rewrite !hnet_app, NB. cbn [hnet hact_net]. rewrite NO, W1. lia. }
          split.
          { apply ends_open_app. destruct (combine (map snd ps) ds) as [|z l'] eqn:CB0.
            - rewrite (W4 eq_refl eq_refl), app_nil_r. exists [], d. repeat split. apply S1.
            - rewrite last_open_cons. apply ends_open_app. apply W2. right. discriminate. }
          destruct b0 as [|c0 b0]; [rewrite HB0 by reflexivity|rewrite HB1 by discriminate]; eexists _, _; reflexivity. }
        split.
        { destruct b0 as [|c0 b0]; [|intros _; rewrite HB1 by discriminate; apply starts_app, start_text; discriminate].
          rewrite HB0 by reflexivity. intros [X|(y & r & X & Y)]; [congruence|]. exists d, y, r, (open_acts (open_levels ops cfg d) ++ hs). auto. }
        intros first lvl p.
        assert (N0 : (0 <= open_levels ops cfg d)%Z) by apply S1.
        assert (X : forall first lvl p, exists x, hist ops cfg first lvl p ((HDoc d :: open_acts (open_levels ops cfg d)) ++ hs) =
          (gap_text ind first (lvl + p_indent p)%Z p ++ shown_at ops cfg (lvl + p_indent p)%Z d ++ spread false (lvl + p_indent p)%Z (combine (map snd ps) ds), x)).
        { intros f l q. rewrite <- app_comm_cons, hist_shown by exact N0. unfold pending_open. destruct (Z.eqb_spec (open_levels ops cfg d) 0) as [Z0|Z0].
          - rewrite Z0, Z.add_0_r. destruct (H eq_refl false (l + p_indent q)%Z) as (y & Y). rewrite Y. eexists. reflexivity.
          - destruct (H' eq_refl (l + p_indent q)%Z (open_levels ops cfg d) ltac:(lia) CB) as (y & Y). rewrite Y. eexists. reflexivity. }
        destruct (HB ((HDoc d :: open_acts (open_levels ops cfg d)) ++ hs) first lvl p) as [H1 H2]. destruct b0 as [|c b0].
        + rewrite (H1 eq_refl). destruct (X first lvl p) as (y & Y). exists y. rewrite Y. reflexivity.
        + rewrite (H2 ltac:(discriminate)). destruct (X false (lvl + p_indent p)%Z nothing) as (y & Y). rewrite Y. exists y.
          cbn [nothing p_indent]. rewrite Z.add_0_r, gap_nothing. reflexivity. }
    destruct sep as [h|].
    + unfold sep_ok in SO. cbn [fst snd] in SO. destruct adj; [discriminate|]. destruct SO as (h' & X & AM). injection X as <-. pose proof (amounts_open _ _ AM) as CF. destruct AM as (R & RQ & _ & _). unfold requested in RQ.
      cbn [interleave app coalesce]. destruct (W []) as (hw & AW & GW & (W1 & W2 & W3) & _ & HW). destruct (text_acts e b) as (hb & AB & GB & HB0 & HB1 & HB).
      assert (G1 : Forall (good_hact ops cfg) (map HReq h ++ hw)) by (apply Forall_app; split; [apply good_requests; exact R|exact GW]).
      exists (hb ++ map HReq h ++ hw). split.
      { eapply acts_to_app; [exact G1|exact AB|]. eapply acts_to_app; [exact GW|apply acts_to_requests; exact R|exact AW]. }
      split; [apply Forall_app; auto|]. split.
      { assert (NB : hnet hb = 0%Z).
        { destruct b as [|c0 b]; [rewrite HB0 by reflexivity; reflexivity|rewrite HB1 by discriminate; reflexivity]. }
        split; [rewrite !hnet_app, NB, (requests_net _ nothing), RQ, W1; cbn [sum_indents nothing p_indent]; lia|].
        split; [intros _; do 2 apply ends_open_app; exact W2|]. split; [|discriminate].
        intros [N|[X _]]; [|discriminate]. rewrite HB1 by exact N. eexists _, _. reflexivity. }
      split; [intros NB; rewrite HB1 by exact NB; apply starts_app, start_text; exact NB|].
      split; [discriminate|]. split.
      * intros NB first lvl p. destruct (HB (map HReq h ++ hw) first lvl p) as [_ H2]. rewrite (H2 NB), hist_requests, RQ by exact R.
        destruct (HW false (lvl + p_indent p)%Z p1) as (x & X). rewrite X. exists x. cbn [spread map app]. reflexivity.
      * split.
        -- intros -> first lvl. destruct (HB (map HReq h ++ hw) first lvl nothing) as [H1 _]. rewrite (H1 eq_refl), hist_requests, RQ by exact R.
           destruct (HW first lvl p1) as (x & X). rewrite X. exists x. cbn [spread map app]. reflexivity.
        -- intros -> lvl n N [C|C]; [lia|]. destruct (HB (map HReq h ++ hw) false (lvl + n)%Z (left_open n)) as [H1 _].
           rewrite (H1 eq_refl), hist_requests, (CF n N C) by exact R.
           match goal with |- exists x, hist _ _ _ ?l ?q _ = _ => destruct (HW false l q) as (x & X) end. rewrite X. exists x. cbn [spread map app p_indent].
           replace (lvl + n + (p_indent p1 - n))%Z with (lvl + p_indent p1)%Z by lia. reflexivity.
    + assert (AJ : adj = true).
      { unfold sep_ok in SO. cbn [fst] in SO. destruct adj; auto. destruct SO as (? & ? & _). discriminate. }
      subst adj. specialize (Q eq_refl). cbn [snd] in Q. subst p1. cbn [interleave app]. destruct (W b) as (hw & AW & GW & (W1 & W2 & W3) & SW & HW).
      exists hw. split; [exact AW|]. split; [exact GW|]. split; [split; [exact W1|split; [auto|split; [auto|discriminate]]]|]. split; [auto|]. split; [auto|]. split.
      * intros NB first lvl p. destruct (HW first lvl p) as (x & X). rewrite X. exists x. cbn [spread nothing p_indent]. rewrite Z.add_0_r, gap_nothing. reflexivity.
      * split.
        -- intros -> first lvl. destruct (HW first lvl nothing) as (x & X). rewrite X. exists x. cbn [spread map app]. reflexivity.
        -- intros -> lvl n N [C|[C _]]; [lia|]. cbn in C. lia.
Qed.

Lemma all_show_acceptable (ws : list leaf) : forall e ds e', all_show ops cfg ws e ds e' -> ~ Exists (fun l => ~ acceptable l) ws.
Proof.
  induction ws as [|w ws IH]; intros e ds e' SH X; [inversion X|]. destruct ds as [|d ds]; [contradiction|]. destruct SH as (e1 & S & SH).
  inversion X as [? ? NA|? ? X']; subst; [|eapply IH; eauto]. apply NA. destruct w as [s|x]; [exists (CText s); reflexivity|].
  destruct S as (((t & Q & _) & _) & _). unfold quote in Q. destruct (quote_code [x]) as [[r code]|] eqn:QC; [|discriminate].
  destruct x; try (exists (CCode code); exists r, code; auto; fail). exists (CEffect f). reflexivity.
Qed.
Lemma quiet_first p (ps : list (bool * pending)) : quiet p -> Forall quiet ps -> Forall quiet (p :: ps).
Proof. constructor; auto. Qed.

Lemma keep_push a (x : item LI) r : is_white x = false -> exists b, push_loop (a ++ x :: r) = b ++ x :: r.
Proof.
  intros N. induction a as [|y a IH]; [exists [Push]; destruct x; try discriminate N; reflexivity|]. destruct y; cbn [app push_loop]; auto;
    match goal with |- exists b, ?l = _ => eexists end; try (rewrite app_comm_cons; rewrite ?app_comm_cons; reflexivity).
Qed.
Lemma keep_line a (x : item LI) r : is_white x = false -> exists b, line_loop (a ++ x :: r) = b ++ x :: r.
Proof.
  intros N. induction a as [|y a IH]; [exists [Line]; destruct x; try discriminate N; reflexivity|]. destruct y; cbn [app line_loop]; auto;
    eexists; rewrite !app_comm_cons; reflexivity.
Qed.
Lemma keep_indentation a (x : item LI) r : is_white x = false -> forall n, exists b, indentation_loop n (a ++ x :: r) = b ++ x :: r.
Proof.
  intros N. induction a as [|y a IH]; intros n.
  - exists (if Z.eqb n 0 then [] else [Indentation n]). destruct x; try discriminate N; cbn; destruct (Z.eqb n 0); reflexivity.
  - destruct y; cbn [app indentation_loop]; auto; destruct (Z.eqb n 0); eexists; rewrite !app_comm_cons; reflexivity.
Qed.
Lemma keep_hrun hs : Forall (good_hact ops cfg) hs -> forall a (x : item LI) r, is_white x = false -> exists b, hrun hs (a ++ x :: r) = b ++ x :: r.
Proof.
  induction 1 as [|h hs G _ IH]; intros a x r N; [exists a; reflexivity|]. cbn [hrun fold_left]. change (fold_left hrun1 hs ?l) with (hrun hs l).
  assert (X : exists b, hrun1 (a ++ x :: r) h = b ++ x :: r).
  { destruct h as [ns|q]; cbn [hrun1]; [eexists; rewrite app_assoc; reflexivity|].
    destruct q; try (exfalso; eapply G; reflexivity); cbn [act_call run_call].
    - unfold space. cbn [ritems]. destruct (a ++ x :: r) as [|[] l] eqn:Q; try (exists (Space :: a); rewrite <- app_comm_cons, Q; reflexivity).
      exists a. cbn. congruence.
    - apply keep_push; exact N.
    - apply keep_line; exact N.
    - apply keep_indentation; exact N.
    - apply keep_indentation; exact N. }
  destruct X as (b & ->). apply IH. exact N.
Qed.
Definition text_first (t : tokens LI) : Prop := exists z rest, items t = z :: rest /\ begun z.
Lemma text_first_clean t : text_first t -> clean_start (l_format_item ops) t.
Proof. intros (z & rest & IT & BG). exists [], z, rest. split; [exact IT|]. split; [exact BG|split; [constructor|intros [] ? ?; discriminate]]. Qed.
Lemma starts_clean hs (t : tokens LI) : Forall (good_hact ops cfg) hs -> starts hs -> bare (ritems t) = bare (hrun hs []) -> text_first t.
Proof.
  intros G (ns & y & r & hs' & -> & DI & BG) B. inversion G as [|? ? G1 G2]; subst. cbn [hrun fold_left hrun1] in B. change (fold_left hrun1 hs' ?l) with (hrun hs' l) in B.
  rewrite app_nil_r, DI in B. cbn [rev] in B.
  assert (N : is_white y = false) by (destruct y; try reflexivity; contradiction).
  destruct (keep_hrun hs' G2 (rev r) y [] N) as (b & K). rewrite K, map_app in B. cbn [map] in B.
  assert (BI : bare (items t) = erase y :: bare (rev b)).
  { unfold items. rewrite map_rev, B, rev_app_distr, map_rev. reflexivity. }
  destruct (items t) as [|z rest] eqn:IT; [discriminate|]. cbn [map] in BI. injection BI as Z _.
  exists z, rest. split; [exact IT|].
  destruct y, z; cbn in Z; try discriminate Z; try contradiction; try (injection Z as ->); auto; try (injection Z as _ ->); auto.
Qed.

(** ** Documents *)
Lemma bare_split (x : list (item LI)) a b : bare x = a ++ b -> exists u v, x = u ++ v /\ bare u = a /\ bare v = b.
Proof.
  revert x. induction a as [|i a IH]; intros x H; [exists [], x; auto|]. destruct x as [|y x]; [discriminate|]. cbn in H. injection H as H1 H2.
  destruct (IH x H2) as (u & v & -> & <- & <-). exists (y :: u), v. cbn. rewrite H1. auto.
Qed.
Lemma atoms_erase (x y : item LI) : erase x = erase y -> atoms_of ops x = atoms_of ops y /\ plain x = plain y /\ SpecFmt.string_item ops x = SpecFmt.string_item ops y.
Proof. destruct x, y; cbn [erase]; intros H; try discriminate; try (injection H; intros; subst); auto. Qed.
Lemma plain_erase (xs ys : list (item LI)) : bare xs = bare ys -> forallb plain xs = forallb plain ys /\ atoms ops xs = atoms ops ys.
Proof.
  revert ys. induction xs as [|x xs IH]; intros [|y ys] H; try discriminate; [auto|]. cbn in H. injection H as H1 H2. destruct (IH ys H2) as [I1 I2].
  destruct (atoms_erase x y H1) as (A & P & _). cbn [forallb atoms flat_map]. unfold atoms in *. cbn [flat_map]. rewrite I1, I2, A, P. auto.
Qed.
Lemma single_erase (a b : list (item LI)) : bare a = bare b ->
  match a with [Literal s] => Some (content s) | _ => None end = match b with [Literal s] => Some (content s) | _ => None end.
Proof.
  destruct a as [|x [|x2 a]], b as [|y [|y2 b]]; intros H; try discriminate; try reflexivity.
  - destruct x, y; cbn in H; try discriminate; try reflexivity. injection H as ->. reflexivity.
  - cbn in H. injection H as H _. destruct x, y; cbn in H; try discriminate; reflexivity.
Qed.
Lemma relink m : (forall ns its, length its <= m -> bare its = bare (doc_items ns) ->
     exists ns', its = doc_items ns' /\ doc_ok ns' = doc_ok ns /\ atoms_in ns' = atoms_in ns) /\
  (forall ps its, length its <= m -> bare its = bare (flat_map part_items ps) ->
     exists ps', its = flat_map part_items ps' /\ forallb part_ok ps' = forallb part_ok ps /\ flat_map (part_atoms ops cfg) ps' = flat_map (part_atoms ops cfg) ps).
Proof.
  induction m as [|m [IHn IHp]].
  { split.
    - intros ns its L H. destruct its; [|cbn in L; lia]. destruct ns as [|[x|e ps] ns]; try discriminate. exists []. auto.
    - intros ps its L H. destruct its; [|cbn in L; lia]. destruct ps as [|[x|xs|ns] ps]; try discriminate. exists []. auto. }
  split.
  - intros ns its L H. destruct ns as [|n0 ns]; [destruct its; [|discriminate]; exists []; auto|].
    unfold doc_items in H. cbn [flat_map] in H. rewrite map_app in H. apply bare_split in H as (u & v & -> & H1 & H2).
    rewrite app_length in L. destruct n0 as [x|e ps].
    + destruct u as [|y [|y2 u]]; try discriminate. cbn in H1. injection H1 as H1. cbn [length] in L.
      destruct (IHn ns v ltac:(lia) H2) as (ns' & -> & O & A). exists (NItem y :: ns'). destruct (atoms_erase y x H1) as (AX & PX & _).
      split; [reflexivity|]. unfold doc_ok, doc_atoms in *. cbn [forallb node_ok flat_map node_atoms]. rewrite O, A, AX, PX. auto.
    + assert (NI : node_items (NString e ps) = OpenQuote e :: flat_map part_items ps ++ [CloseQuote]) by reflexivity. rewrite NI in H1. clear NI.
      cbn [map erase] in H1. rewrite map_app in H1. destruct u as [|y u]; [discriminate|]. cbn [map] in H1. injection H1 as H1 H3.
      apply bare_split in H3 as (u1 & u2 & -> & H3 & H4). cbn [length] in L. rewrite app_length in L.
      destruct (IHp ps u1 ltac:(lia) H3) as (ps' & -> & O1 & A1). destruct (IHn ns v ltac:(lia) H2) as (ns' & -> & O & A).
      assert (Y : y = OpenQuote e) by (destruct y; try discriminate H1; exact H1). subst y.
      assert (U : u2 = [CloseQuote]) by (destruct u2 as [|z [|? ?]]; try discriminate H4; destruct z; try discriminate H4; reflexivity). subst u2.
      exists (NString e ps' :: ns'). split; [reflexivity|]. unfold doc_ok, doc_atoms in *. cbn [forallb flat_map].
      change (node_ok (NString e ps')) with (forallb part_ok ps'). change (node_ok (NString e ps)) with (forallb part_ok ps).
      change (node_atoms ops cfg (NString e ps')) with (texts (l_open_quote ops e) ++ flat_map (part_atoms ops cfg) ps' ++ texts (l_close_quote ops e)).
      change (node_atoms ops cfg (NString e ps)) with (texts (l_open_quote ops e) ++ flat_map (part_atoms ops cfg) ps ++ texts (l_close_quote ops e)).
      rewrite O, A, O1, A1. auto.
  - intros ps its L H. destruct ps as [|p0 ps]; [destruct its; [|discriminate]; exists []; auto|].
    cbn [flat_map] in H. rewrite map_app in H. apply bare_split in H as (u & v & -> & H1 & H2).
    rewrite app_length in L. destruct p0 as [x|xs|ns].
    + destruct u as [|y [|y2 u]]; try discriminate. cbn in H1. injection H1 as H1. cbn [length] in L.
      destruct (IHp ps v ltac:(lia) H2) as (ps' & -> & O & A). exists (PItem y :: ps'). destruct (atoms_erase y x H1) as (_ & PX & AX).
      split; [reflexivity|]. cbn [forallb part_ok flat_map part_atoms]. rewrite O, A, AX, PX. auto.
    + assert (NI : part_items (PQuoted xs) = OpenQuote false :: xs ++ [CloseQuote]) by reflexivity. rewrite NI in H1. clear NI.
      cbn [map erase] in H1. rewrite map_app in H1. destruct u as [|y u]; [discriminate|]. cbn [map] in H1. injection H1 as H1 H3.
      apply bare_split in H3 as (u1 & u2 & -> & H3 & H4). cbn [length] in L. rewrite app_length in L.
      destruct (IHp ps v ltac:(lia) H2) as (ps' & -> & O & A).
      assert (Y : y = OpenQuote false) by (destruct y; try discriminate H1; exact H1). subst y.
      assert (U : u2 = [CloseQuote]) by (destruct u2 as [|z [|? ?]]; try discriminate H4; destruct z; try discriminate H4; reflexivity). subst u2.
      exists (PQuoted u1 :: ps'). split; [reflexivity|]. destruct (plain_erase u1 xs H3) as [P1 P2].
      cbn [forallb flat_map]. change (part_ok (PQuoted u1)) with (forallb plain u1). change (part_ok (PQuoted xs)) with (forallb plain xs).
      cbn [part_atoms]. unfold quoted_source. rewrite O, A, P1, P2. auto.
    + assert (NI : part_items (SpecFmt.PEval ns) = OpenEval :: doc_items ns ++ [CloseEval]) by reflexivity. rewrite NI in H1. clear NI.
      cbn [map erase] in H1. rewrite map_app in H1. destruct u as [|y u]; [discriminate|]. cbn [map] in H1. injection H1 as H1 H3.
      apply bare_split in H3 as (u1 & u2 & -> & H3 & H4). cbn [length] in L. rewrite app_length in L.
      destruct (IHp ps v ltac:(lia) H2) as (ps' & -> & O & A). destruct (IHn ns u1 ltac:(lia) H3) as (ns' & -> & O1 & A1).
      assert (Y : y = OpenEval) by (destruct y; try discriminate H1; exact H1). subst y.
      assert (U : u2 = [CloseEval]) by (destruct u2 as [|z [|? ?]]; try discriminate H4; destruct z; try discriminate H4; reflexivity). subst u2.
      exists (SpecFmt.PEval ns' :: ps'). split; [reflexivity|].
      cbn [forallb flat_map]. change (part_ok (SpecFmt.PEval ns')) with (doc_ok ns'). change (part_ok (SpecFmt.PEval ns)) with (doc_ok ns).
      assert (PA : part_atoms ops cfg (SpecFmt.PEval ns') = part_atoms ops cfg (SpecFmt.PEval ns)).
      { change (match single_literal ns' with Some s => texts (l_string_eval_literal ops s) | None => texts (l_start_string_eval ops) ++ atoms_in ns' ++ texts (l_end_string_eval ops) end =
                match single_literal ns with Some s => texts (l_string_eval_literal ops s) | None => texts (l_start_string_eval ops) ++ atoms_in ns ++ texts (l_end_string_eval ops) end).
        unfold single_literal. rewrite (single_erase _ _ H3), A1. reflexivity. }
      rewrite O, A, O1, PA. auto.
Qed.

Lemma outdent_length col cols : forall n cs, outdent col cols = Some (n, cs) -> length cols = n + length cs /\ cs <> [].
Proof.
  induction cols as [|c cols IH]; intros n cs H; [discriminate|]. cbn [outdent] in H. destruct (c =? col); [injection H as <- <-; split; [reflexivity|discriminate]|].
  destruct (col <? c); [|discriminate]. destruct (outdent col cols) as [[m cs']|]; [|discriminate]. cbn in H. injection H as <- <-.
  destruct (IH m cs' eq_refl) as [L N]. cbn. split; [lia|exact N].
Qed.
Lemma new_line_length col cols k cs : new_line col cols = Some (k, cs) -> (k = Z.of_nat (length cs) - Z.of_nat (length cols))%Z /\ cs <> [].
Proof.
  unfold new_line. destruct cols as [|c cols]; [discriminate|]. destruct (c <? col).
  - intros H. injection H as <- <-. cbn [length]. split; [lia|discriminate].
  - destruct (outdent col (c :: cols)) as [[n cs']|] eqn:O; [|discriminate]. cbn [option_map]. intros H. injection H as <- <-. apply outdent_length in O as [L N]. split; [lia|exact N].
Qed.
Lemma gap_length frm to cols p cs : cols <> [] -> gap frm to cols = Some (p, cs) -> (p_indent p = Z.of_nat (length cs) - Z.of_nat (length cols))%Z /\ cs <> [].
Proof.
  intros N. unfold gap. destruct (p_line frm =? p_line to); [intros H; injection H as <- <-; cbn; split; [lia|exact N]|].
  destruct (p_line to <? p_line frm); [discriminate|].
  assert (X : forall b, option_map (fun '(k, cs) => (mk_pending b false 0 k, cs)) (new_line (p_col to) cols) = Some (p, cs) ->
     (p_indent p = Z.of_nat (length cs) - Z.of_nat (length cols))%Z /\ cs <> []).
  { intros b. destruct (new_line (p_col to) cols) as [[k cs']|] eqn:NL; [|discriminate]. cbn. intros H. injection H as <- <-. apply new_line_length in NL. exact NL. }
  destruct cols as [|c [|c2 cols]]; try apply X. destruct (p_col to <? c); [|apply X]. intros H. injection H as <- <-. cbn. split; [lia|discriminate].
Qed.
Definition placed (w : place) : Prop := match w with Some (_, cols) => cols <> [] | None => True end.
Lemma gaps_depth cs : forall w ps w' (ds : list (list (node LI))), placed w -> gaps cs w = Some (ps, w') -> length ds = length ps ->
  (Z.of_nat (depth w') = Z.of_nat (depth w) + sum_indents (combine (map snd ps) ds))%Z.
Proof.
  induction cs as [|c cs IH]; intros w ps w' ds P G LD; cbn [gaps] in G.
  - injection G as <- <-. cbn. lia.
  - destruct (enter c w) as [[p w1]|] eqn:EN; [|discriminate]. destruct (gaps cs w1) as [[ps' w2]|] eqn:GS; [|discriminate]. injection G as <- <-.
    destruct ds as [|d ds]; [discriminate|]. cbn [map snd combine sum_indents].
    assert (X : placed w1 /\ (Z.of_nat (depth w1) = Z.of_nat (depth w) + p_indent p)%Z).
    { destruct w as [[frm cols]|]; cbn [enter] in EN.
      - destruct (gap frm (c_start c) cols) as [[p' cols']|] eqn:GP; [|discriminate]. cbn in EN. injection EN as <- <-. cbn [placed] in *.
        destruct (gap_length _ _ _ _ _ P GP) as [L N]. split; [exact N|]. cbn [depth]. destruct cols; [congruence|]. destruct cols'; [congruence|]. cbn [length] in *. lia.
      - injection EN as <- <-. split; [discriminate|reflexivity]. }
    destruct X as [P1 D1]. injection LD as LD. rewrite (IH w1 ps' w2 ds P1 GS LD), D1. lia.
Qed.
Lemma all_show_length (ws : list leaf) : forall e ds e', all_show ops cfg ws e ds e' -> length ds = length ws.
Proof. induction ws as [|w ws IH]; intros e [|d ds] e' SH; try contradiction; [reflexivity|]. destruct SH as (e1 & _ & SH). cbn. f_equal. eapply IH. exact SH. Qed.

Lemma last_open_last (ps : list pending) (ds : list (list (node LI))) : length ps = length ds -> ds <> [] ->
  last_open (combine ps ds) = open_levels ops cfg (last ds []).
Proof.
  revert ds. induction ps as [|p ps IH]; intros [|d ds] L N; try discriminate; [congruence|]. injection L as L. destruct ds as [|d2 ds].
  - destruct ps; [reflexivity|discriminate].
  - destruct ps as [|p2 ps]; [discriminate|]. cbn [combine]. rewrite last_open_cons. apply (IH (d2 :: ds)); [exact L|discriminate].
Qed.
(** A stream that is, up to links, built by acts that end with a document. *)
Lemma acts_document hs m n t : Forall (good_hact ops cfg) hs -> leads hs -> ends_open hs m -> hnet hs = Z.of_nat n ->
  bare (ritems t) = bare (hrun (hs ++ map HReq (repeat TUnindent n)) []) ->
  exists ns, items t = doc_items ns ++ closing (open_levels ops cfg ns) /\ doc_ok ns = true /\ visible_ends (atoms_in ns) /\
  open_levels ops cfg ns = (Z.of_nat n + m)%Z /\
  forall lvl out x, hist ops cfg false lvl nothing hs = (out, x) -> shown_at ops cfg lvl ns = out.
Proof.
  intros G LD (hs0 & d & -> & OD & M0) HN B.
  assert (G2 : Forall (good_hact ops cfg) (hs0 ++ [HDoc d])).
  { apply Forall_app in G as [Ga Gb]. apply Forall_app. split; [exact Ga|]. inversion Gb; subst. constructor; auto. }
  destruct (hist_run_all ops cfg _ G2 false [] false 0%Z [] I I) as (ns & s' & lines' & p' & i' & base' & E1 & E2 & E3 & E4 & E5 & E6 & E7 & E8).
  change (@shape LI false [] false 0 ++ []) with (@nil (item LI)) in E1.
  assert (GD : good_hact ops cfg (HDoc d)) by (apply Forall_app in G2 as [_ Gb]; inversion Gb; auto).
  destruct GD as (D1 & (r0 & z & EZ & NZ) & D3).
  assert (HD : hrun (hs0 ++ [HDoc d]) [] = z :: (rev r0 ++ hrun hs0 [])).
  { rewrite hrun_app. cbn [hrun fold_left hrun1]. rewrite EZ, rev_app_distr. reflexivity. }
  assert (SN : @shape LI s' lines' p' i' = []).
  { pose proof (@shape_white LI s' lines' p' i') as SW. rewrite HD in E1. destruct (shape s' lines' p' i') as [|y sh]; [reflexivity|].
    cbn in E1. injection E1 as -> _. inversion SW; subst. congruence. }
  rewrite SN in E1. cbn [app] in E1. cbn [rev app] in E4.
  assert (VE : visible_ends (atoms_in ns)).
  { assert (L2 : exists d0 hs', hs0 ++ [HDoc d] = HDoc d0 :: hs').
    { destruct LD as (x & hs' & X). destruct hs0 as [|h hs0]; [eexists _, _; reflexivity|]. cbn in X. injection X as -> _. eexists _, _. reflexivity. }
    destruct (E7 eq_refl L2) as (a & l & EA & VA). split; [exists a, l; auto|]. destruct E6 as [->|E6]; [discriminate EA|]. exact E6. }
  assert (NT : open_levels ops cfg ns = (Z.of_nat n + m)%Z).
  { destruct (E8 true 0%Z) as (out & first' & H1 & _). apply hist_net in H1. rewrite hnet_app in H1. cbn [hnet hact_net] in H1.
    rewrite !hnet_app in HN. cbn [hnet hact_net] in HN. rewrite (requests_net _ nothing), pending_open_requests in HN by exact M0.
    assert (PO : p_indent (pending_open m) = (- m)%Z) by (unfold pending_open, left_open; destruct (Z.eqb_spec m 0) as [->|]; reflexivity).
    rewrite PO in HN. unfold open_levels in *. cbn [state_of p_indent nothing] in *.
    assert (I0 : i' = 0%Z).
    { destruct (shape_nodes ops cfg s' lines' p' i') as (_ & _ & S3). rewrite SN in S3. cbn in S3. pose proof (shape_atoms_net ops s' lines' p' i') as SA. rewrite <- S3 in SA. cbn in SA. congruence. }
    lia. }
  assert (HR : hrun ((hs0 ++ HDoc d :: open_acts m) ++ map HReq (repeat TUnindent n)) [] = rev (closing (open_levels ops cfg ns)) ++ rev (doc_items ns)).
  { replace ((hs0 ++ HDoc d :: open_acts m) ++ map HReq (repeat TUnindent n)) with ((hs0 ++ [HDoc d]) ++ open_acts (Z.of_nat n + m)).
    - rewrite hrun_app, HD, hrun_open by (exact NZ || lia). rewrite NT. f_equal. rewrite <- E4, rev_involutive, <- E1, HD. reflexivity.
    - rewrite <- !app_assoc. cbn [app]. do 2 f_equal. rewrite <- map_app, <- repeat_app. do 2 f_equal. lia. }
  rewrite HR in B.
  assert (BI : bare (items t) = bare (doc_items ns) ++ bare (closing (open_levels ops cfg ns))).
  { unfold items. rewrite map_rev, B, <- map_rev, rev_app_distr, !rev_involutive, map_app. reflexivity. }
  apply bare_split in BI as (u & v & EU & B1 & B2).
  assert (EV : v = closing (open_levels ops cfg ns)).
  { unfold closing in *. destruct (Z.eqb (open_levels ops cfg ns) 0); [destruct v; [reflexivity|discriminate]|].
    destruct v as [|y [|? ?]]; try discriminate. cbn in B2. injection B2 as B2. destruct y; try discriminate B2. cbn in B2. rewrite B2. reflexivity. }
  destruct (proj1 (relink (length u)) ns u (le_n _) B1) as (ns' & -> & O & A). exists ns'.
  assert (OL : open_levels ops cfg ns' = open_levels ops cfg ns) by (unfold open_levels; rewrite A; reflexivity).
  split; [rewrite EU, EV, OL; reflexivity|]. split; [congruence|]. split; [rewrite A; exact VE|]. split; [congruence|].
  intros lvl out x H. unfold shown_at. rewrite A. destruct (E8 false lvl) as (o & f & H1 & H2). specialize (H2 []). cbn [layout_from] in H2. rewrite !app_nil_r in H2. rewrite H2.
  replace (hs0 ++ HDoc d :: open_acts m) with ((hs0 ++ [HDoc d]) ++ open_acts m) in H by (rewrite <- app_assoc; reflexivity).
  rewrite hist_app in H. change (state_of false [] false 0) with nothing in H1. rewrite H1 in H.
  pose proof (hist_requests ops cfg (repeat TUnindent (Z.to_nat m)) [] f (lvl + net (atoms_in ns))%Z (state_of s' lines' p' i')) as HQ.
  rewrite app_nil_r in HQ. rewrite HQ in H by (apply Forall_forall; intros q Hq; apply repeat_spec in Hq as ->; discriminate).
  cbn [hist] in H. injection H as <- _. rewrite app_nil_r. reflexivity.
Qed.

(** A quote of words. *)
Lemma words_quote (qs : list quoted) cs ws ds ps w e e' : map fst (all_tokens qs) = cs -> map snd (all_tokens qs) = ws ->
  gaps cs None = Some (ps, w) -> Forall quiet ps -> all_show ops cfg ws e ds e' -> chained (combine (map snd ps) ds) ->
  exists t, quote qs e = Some (e', t) /\
  outcome (format_items ops cfg string_writer (items t) (formatter_new [])) =
    (text (c_newline cfg) (spread true 0 (combine (map snd ps) ds)), true) /\
  (match ds with d :: _ => exists y r, doc_items d = y :: r /\ begun y | [] => False end -> text_first t) /\
  (ds <> [] -> exists ns, items t = doc_items ns ++ closing (open_levels ops cfg ns) /\ doc_ok ns = true /\ visible_ends (atoms_in ns) /\
     (0 <= open_levels ops cfg ns)%Z /\ open_levels ops cfg ns = (sum_indents (combine (map snd ps) ds) + open_levels ops cfg (last ds []))%Z /\
     forall lvl, shown_at ops cfg lvl ns = spread false lvl (combine (map snd ps) ds)).
Proof.
  intros MF MS G QU SH CH. pose proof (code_by_tokens qs) as C. rewrite MF, MS, G in C. unfold quote. destruct (quote_code qs) as [[r code]|].
  - destruct C as (ps' & w' & seps & X & F2 & ks & K1 & K2 & K3 & K4). injection X as <- <-. rewrite MS in K1.
    pose proof (gaps_length _ _ _ _ G) as LG.
    assert (LW : length ws = length ps).
    { rewrite LG, <- MF, <- MS, !map_length. reflexivity. }
    destruct (words_code ps QU seps ws ks ds e e' F2 LW K1 SH CH []) as (hs & A & GH & (W1 & W2 & W3 & _) & _ & ST & _ & H & _).
    destruct (H eq_refl true 0%Z) as ([[f l] q] & EH). set (n := depth w) in *.
    assert (RR : requests (repeat TUnindent n)) by (apply Forall_forall; intros a Ha; apply repeat_spec in Ha as ->; discriminate).
    assert (A2 : acts_to (repeat SUnindent n) e' (map HReq (repeat TUnindent n)) e').
    { assert (MR : map act_stmt (repeat TUnindent n) = repeat (@SUnindent LI E) n) by (clear; induction n; cbn; congruence).
      rewrite <- MR. apply acts_to_requests; auto. }
    assert (G2 : Forall (good_hact ops cfg) (map HReq (repeat TUnindent n))) by (apply good_requests; exact RR).
    destruct (acts_to_app _ _ _ _ _ _ _ G2 A A2 new (@new_wf LI)) as (t & X & _ & B).
    assert (LL : ds <> [] -> hd None seps = None /\ exists p ps', ps = p :: ps').
    { destruct ds as [|d ds]; [congruence|intros _].
      destruct cs as [|c0 cs0]; [destruct ps; [|discriminate LG]; destruct ws; [|discriminate LW]; contradiction|].
      destruct ps as [|ap ps0]; [discriminate LG|]. pose proof (gaps_first _ _ _ _ G) as X0. cbn in X0. injection X0 as ->.
      inversion F2 as [|? sep ? seps' SO F2']; subst. unfold sep_ok in SO. cbn [fst] in SO. subst sep. split; [reflexivity|eauto]. }
    exists t. split; [cbn [option_map snd]; rewrite K4, X; reflexivity|]. split; [|split].
    3:{ intros ND. assert (LC0 : combine (map snd ps) ds <> []).
      { destruct (LL ND) as (_ & p0 & ps0 & ->). destruct ds; [congruence|discriminate]. }
      assert (LDS : length ds = length ps) by (rewrite (all_show_length _ _ _ _ SH); exact LW).
      pose proof (gaps_depth cs None ps w ds I G LDS) as GD. cbn [depth] in GD. fold n in GD.
      destruct (acts_document hs (last_open (combine (map snd ps) ds)) n t GH) as (ns & N1 & N2 & N3 & N4 & N5).
      - apply W3. right. split; [apply LL; exact ND|exact LC0].
      - apply W2. right. exact LC0.
      - rewrite W1. lia.
      - exact B.
      - exists ns. split; [exact N1|]. split; [exact N2|]. split; [exact N3|]. split.
        + rewrite N4. destruct (W2 (or_intror LC0)) as (_ & _ & _ & _ & M0). lia.
        + split; [rewrite N4, GD, (last_open_last (map snd ps) ds) by (assumption || rewrite map_length; congruence); lia|].
          intros lvl. destruct (H eq_refl false lvl) as (x & HX). exact (N5 _ _ _ HX). }
    2:{ intros BG. destruct ds as [|d ds]; [contradiction|].
      destruct (LL ltac:(discriminate)) as (LD & p0 & ps0 & ->). specialize (ST LD). cbn [map combine] in ST. apply ST in BG.
      eapply starts_clean; [|apply starts_app; exact BG|exact B]. apply Forall_app. split; assumption. }
    destruct (acts_render ops cfg (hs ++ map HReq (repeat TUnindent n)) t (spread true 0 (combine (map snd ps) ds)) (f, l, fold_left (fun p a => request a p) (repeat TUnindent n) q))
      as (la & L1 & L2).
    + apply Forall_app; auto.
    + exact B.
    + rewrite hist_app, EH. pose proof (hist_requests ops cfg (repeat TUnindent n) [] f l q RR) as HR. rewrite app_nil_r in HR. rewrite HR.
      cbn [hist]. rewrite app_nil_r. reflexivity.
    + rewrite L2, <- L1. destruct (run_string_new cfg la []) as [st' [E1 E2]].
      unfold str in *. rewrite E1. unfold outcome; cbn. rewrite E2. reflexivity.
  - destruct C as [C|C]; [discriminate|]. exfalso. exact (all_show_acceptable ws e ds e' SH C).
Qed.

(** ** Lines of source *)
Definition row_gap (g : nat) : bool * pending := (g =? 0, mk_pending 0 (negb (g =? 0)) 0 0).
Notation word := (src_word LI E).
Lemma row_gaps cols (more : list (nat * word)) : forall frm rest,
  gaps (map fst (row_tokens frm more) ++ rest) (Some (frm, cols)) =
  match gaps rest (Some (row_end frm more, cols)) with
  | Some (ps, w) => Some (map (fun gw => row_gap (fst gw)) more ++ ps, w)
  | None => None
  end.
Proof.
  induction more as [|[g w] more IH]; intros frm rest.
  - cbn. destruct (gaps rest _) as [[? ?]|]; reflexivity.
  - cbn [row_tokens map fst app gaps enter row_end]. cbv zeta. cbn [fst]. unfold gap. set (c := src_cursor (p_line frm) (p_col frm + g) w).
    assert (S1 : p_line (c_start c) = p_line frm) by reflexivity. assert (S2 : p_col (c_start c) = p_col frm + g) by reflexivity.
    cbn [map fst app gaps enter]. unfold gap. rewrite S1, S2, Nat.eqb_refl. cbn [option_map].
    rewrite IH. destruct (gaps rest _) as [[ps w']|]; [|reflexivity]. cbn [map app fst]. do 3 f_equal. unfold row_gap, adjacent.
    rewrite S1, S2, Nat.eqb_refl. cbn [andb].
    destruct (Nat.eqb_spec g 0) as [->|N].
    + rewrite !Nat.add_0_r, !Nat.ltb_irrefl. reflexivity.
    + destruct (Nat.ltb_spec (p_col frm) (p_col frm + g)); [reflexivity|lia].
Qed.
Lemma word_tokens_leaves row (ls : list (line_of word)) : map snd (word_tokens row ls) = map sw_leaf (flat_map words_of ls).
Proof.
  revert row. induction ls as [|l ls IH]; intros row; [reflexivity|]. cbn [word_tokens map snd flat_map words_of app]. cbv zeta. cbn [map snd app]. f_equal.
  rewrite map_app, IH, map_app. f_equal. rewrite map_map. generalize (c_end (src_cursor (row + ln_empty l) (ln_col l) (ln_word l))).
  induction (ln_more l) as [|[g w] m IHm]; intros c; [reflexivity|]. cbn [row_tokens]. cbv zeta. cbn [map snd]. f_equal. apply IHm.
Qed.

Notation doc := (list (node LI)).
Lemma spread_app a : forall b first lvl, Forall (fun q => p_indent (fst q) = 0%Z) a ->
  spread first lvl (a ++ b) = spread first lvl a ++ spread (match a with [] => first | _ => false end) lvl b.
Proof.
  induction a as [|[p s] a IH]; intros b first lvl F; [reflexivity|]. inversion F as [|? ? H F']; subst. cbn [fst] in H.
  cbn [app spread]. rewrite H, Z.add_0_r, IH by auto. rewrite <- !app_assoc. do 2 f_equal. destruct a; reflexivity.
Qed.
Lemma more_spread (more : list (nat * doc)) : forall lvl, spread false lvl (combine (map snd (map (fun gw => row_gap (fst gw)) more)) (map snd more)) =
  flat_map (fun '(g, ns) => (if g =? 0 then [] else [Ch 32]) ++ shown_at ops cfg lvl ns) more.
Proof.
  induction more as [|[g w] more IH]; intros lvl; [reflexivity|]. cbn [map combine spread flat_map row_gap snd fst p_indent].
  rewrite Z.add_0_r, IH, <- !app_assoc. f_equal. unfold gap_text. cbn [p_breaks p_space Nat.eqb]. destruct (g =? 0); reflexivity.
Qed.

Fixpoint cols_fit (ss cs : list nat) : Prop :=
  match cs with [] => True | c :: cs' => may_start ss c /\ cols_fit (ss ++ [c]) cs' end.
Notation hollow := (map_line (fun _ => tt)).
Lemma hollow_more {W V} (l : line_of W) (d : line_of V) : hollow l = hollow d ->
  ln_empty l = ln_empty d /\ ln_col l = ln_col d /\ map fst (ln_more l) = map fst (ln_more d).
Proof.
  destruct l as [n c w m], d as [n' c' w' m']. unfold map_line. cbn. intros H. injection H as -> -> H. repeat split.
  revert m' H. induction m as [|[g x] m IH]; intros [|[g' x'] m'] H; try discriminate; [reflexivity|]. cbn in *. injection H as -> H. f_equal. auto.
Qed.
Lemma more_combine (m : list (nat * word)) (m' : list (nat * doc)) : map fst m = map fst m' ->
  map (fun gw => row_gap (fst gw)) m = map (fun gw => row_gap (fst gw)) m'.
Proof. intros H. rewrite <- (map_map fst row_gap m), H, map_map. reflexivity. Qed.

Lemma filter_len {A} (f : A -> bool) l : length (filter f l) <= length l.
Proof. induction l as [|x l IH]; [constructor|]. cbn. destruct (f x); cbn; lia. Qed.
Lemma level_step ss c : ss <> [] -> level (ss ++ [c]) <= S (level ss) /\ (c <= last ss 0 -> level (ss ++ [c]) <= level ss).
Proof.
  intros N. pose proof (level_enclosing ss N) as L0. pose proof (level_enclosing (ss ++ [c]) ltac:(destruct ss; discriminate)) as L1.
  rewrite enclosing_snoc in L1. cbn [length] in L1. pose proof (filter_len (fun d => d <? c) (enclosing ss)) as FL.
  split; [lia|]. intros C. destruct (@exists_last _ ss N) as (ss' & x & ->). rewrite last_last in C. rewrite enclosing_snoc in *. cbn [filter length] in *.
  destruct (Nat.ltb_spec x c); [lia|]. pose proof (filter_len (fun d => d <? c) (filter (fun d => d <? x) (enclosing ss'))) as FL2. lia.
Qed.
Lemma sum_indents_app a b : sum_indents (a ++ b) = (sum_indents a + sum_indents b)%Z.
Proof. induction a as [|[p d] a IH]; [reflexivity|]. cbn [app sum_indents]. rewrite IH. lia. Qed.
Lemma row_sum (more : list (nat * doc)) : sum_indents (combine (map snd (map (fun gw => row_gap (fst gw)) more)) (map snd more)) = 0%Z.
Proof. induction more as [|[g d] more IH]; [reflexivity|]. cbn [map snd fst combine sum_indents row_gap p_indent]. rewrite IH. reflexivity. Qed.
Lemma chained_line (more : list (nat * doc)) : forall p w rest, Forall (fun ns => open_levels ops cfg ns = 0%Z) (removelast (w :: map snd more)) ->
  closed_by (open_levels ops cfg (last (w :: map snd more) [])) rest -> chained rest ->
  chained ((p, w) :: combine (map snd (map (fun gw => row_gap (fst gw)) more)) (map snd more) ++ rest).
Proof.
  induction more as [|[g v] more IH]; intros p w rest F C H; [split; assumption|].
  cbn [map snd fst combine app]. cbn [map snd] in F, C. change (removelast (w :: v :: map snd more)) with (w :: removelast (v :: map snd more)) in F.
  change (last (w :: v :: map snd more) []) with (last (v :: map snd more) []) in C. inversion F as [|? ? F1 F2]; subst. split; [left; exact F1|].
  apply IH; assumption.
Qed.

(** Lines at a base level. *)
Fixpoint shown_from (base : Z) (before : list nat) (ls : list (line_of doc)) : list sym :=
  match ls with
  | [] => []
  | l :: ls' =>
      let lvl := (base + Z.of_nat (level (before ++ [ln_col l])))%Z in
      match before with
      | [] => []
      | _ => if ln_empty l =? 0 then [NL] else [NL; NL]
      end ++ pad ind lvl ++ shown_line ops cfg lvl l ++ shown_from base (before ++ [ln_col l]) ls'
  end.
Lemma shown_from_0 ls : forall before, shown_from 0 before ls = shown_lines ops cfg before ls.
Proof. induction ls as [|l ls IH]; intros before; [reflexivity|]. cbn [shown_from shown_lines]. rewrite Z.add_0_l, IH. reflexivity. Qed.
Lemma words_gaps (ls : list (line_of word)) : forall (ds : list (line_of doc)) row frm ss, ss <> [] -> S (p_line frm) = row ->
  map hollow ls = map hollow ds -> cols_fit ss (map ln_col ls) ->
  exists ps w, gaps (map fst (word_tokens row ls)) (Some (frm, enclosing ss)) = Some (ps, w) /\
    Forall quiet ps /\
    (forall base, spread false (base + Z.of_nat (level ss)) (combine (map snd ps) (flat_map words_of ds)) = shown_from base ss ds) /\
    (lines_closed ops cfg ds -> Forall (fun d => 0 <= open_levels ops cfg d)%Z (flat_map words_of ds) -> chained (combine (map snd ps) (flat_map words_of ds))) /\
    (forall n, (0 < n)%Z -> match ds with [] => True | d :: _ => n = 1%Z -> ln_empty d = 0 -> ln_col d <= last ss 0 end ->
       closed_by n (combine (map snd ps) (flat_map words_of ds))) /\
    sum_indents (combine (map snd ps) (flat_map words_of ds)) = (Z.of_nat (level (ss ++ map ln_col ls)) - Z.of_nat (level ss))%Z.
Proof.
  induction ls as [|l ls IH]; intros ds row frm ss N RW HO F.
  - destruct ds; [|discriminate]. cbn [flat_map word_tokens map fst gaps shown_from]. exists [], (Some (frm, enclosing ss)). split; [reflexivity|]. split; [constructor|]. split; [reflexivity|]. split; [intros; exact I|]. split; [intros; exact I|]. cbn [map sum_indents combine]. rewrite app_nil_r. lia.
  - destruct ds as [|d ds]; [discriminate|]. cbn [map] in HO. pose proof (f_equal (@tl _) HO) as HO'. cbn [tl] in HO'.
    assert (HL : hollow l = hollow d) by congruence. apply hollow_more in HL as (HE & HC & HM).
    cbn [map] in F. destruct F as [M F]. cbn [word_tokens map fst gaps enter]. cbv zeta. cbn [map fst gaps enter]. set (rw := row + ln_empty l) in *.
    set (c := src_cursor rw (ln_col l) (ln_word l)). assert (CS : c_start c = mk_pos rw (ln_col l)) by reflexivity. rewrite CS.
    assert (LT : p_line frm < p_line (mk_pos rw (ln_col l))) by (cbn; unfold rw; lia).
    pose proof (gap_line frm (mk_pos rw (ln_col l)) ss N LT) as G. cbn [p_col] in G.
    destruct (gap frm (mk_pos rw (ln_col l)) (enclosing ss)) as [[p cols]|]; [|exfalso; apply (proj1 G); exact M].
    destruct G as [-> [[_ ->]|[X _]]]; [|exfalso; auto]. cbn [option_map].
    rewrite map_app, row_gaps.
    assert (N2 : ss ++ [ln_col l] <> []) by (destruct ss; discriminate).
    destruct (IH ds (S (p_line (row_end (c_end c) (ln_more l)))) (row_end (c_end c) (ln_more l)) _ N2 eq_refl HO' F) as (ps & w & E1 & E3 & E4 & E5 & E6 & E7).
    rewrite E1. eexists; exists w. split; [reflexivity|]. split; [|split; [|split; [|split]]].
    + constructor.
      * intros X. exfalso. cbn [p_line] in LT. unfold adjacent in X. cbn [fst] in X. rewrite CS in X. cbn [p_line p_col] in X. apply andb_prop in X as [X _]. apply Nat.eqb_eq in X. lia.
      * apply Forall_app. split; auto. apply Forall_forall. intros [a p] I. apply in_map_iff in I as ([g w1] & X & _). unfold row_gap in X. injection X as <- <-.
        intros Q. cbn in *. rewrite Q. reflexivity.
    + intros base. cbn [map snd flat_map words_of app combine spread p_indent].
      replace (base + Z.of_nat (level ss) + (Z.of_nat (level (ss ++ [ln_col l])) - Z.of_nat (level ss)))%Z with (base + Z.of_nat (level (ss ++ [ln_col l])))%Z by lia.
      rewrite (more_combine _ _ HM), map_app, combine_app by (rewrite !map_length; reflexivity).
      rewrite spread_app.
      2:{ apply Forall_forall. intros [p s] I. apply in_combine_l in I. apply in_map_iff in I as (ap & <- & I). apply in_map_iff in I as (gw & <- & _). reflexivity. }
      rewrite more_spread. rewrite match_same.
      rewrite E4. cbn [shown_from]. rewrite <- HC. cbv zeta. destruct ss as [|s0 ss0] eqn:SS; [congruence|]. rewrite <- SS in *. unfold shown_line. 
      assert (GT : forall lv, gap_text ind false lv
        (mk_pending (breaks_of frm (mk_pos rw (ln_col l))) false 0 (Z.of_nat (level (ss ++ [ln_col l])) - Z.of_nat (level ss))) =
        (if ln_empty d =? 0 then [NL] else [NL; NL]) ++ pad ind lv).
      { intros lv. rewrite <- HE. unfold gap_text, breaks_of. cbn [p_breaks p_space p_line]. unfold rw.
        destruct (Nat.eqb_spec (ln_empty l) 0) as [Z0|Z0].
        - destruct (Nat.ltb_spec 1 (row + ln_empty l - p_line frm)); [lia|]. cbn. rewrite app_nil_r. reflexivity.
        - destruct (Nat.ltb_spec 1 (row + ln_empty l - p_line frm)); [|lia]. cbn. rewrite app_nil_r. reflexivity. }
      rewrite GT, <- !app_assoc. reflexivity.
    + intros (LC & NX & LR) NN. cbn [flat_map] in NN. apply Forall_app in NN as [NN1 NN2]. cbn [map snd flat_map words_of app combine].
      rewrite (more_combine _ _ HM), map_app, combine_app by (rewrite !map_length; reflexivity).
      apply chained_line; [exact LC| |apply E5; assumption].
      destruct (Z.eqb_spec (open_levels ops cfg (last (words_of d) [])) 0) as [Z0|Z0].
      { unfold words_of in Z0. rewrite Z0. destruct (combine _ _) as [|[? ?] ?]; cbn; auto. }
      destruct (Z.ltb_spec 0 (open_levels ops cfg (last (words_of d) []))) as [ZP|ZP]; [|exfalso].
      2:{ assert (IN : In (last (words_of d) []) (words_of d)) by (destruct (@exists_last _ (words_of d) ltac:(discriminate)) as (a & b & X); rewrite X, last_last; apply in_or_app; right; left; reflexivity).
          rewrite Forall_forall in NN1. specialize (NN1 _ IN). lia. }
      apply (E6 _ ZP). destruct ds as [|d' ds']; [exact I|]. rewrite last_last, HC. exact NX.
    + intros n NP CB. cbn [map snd flat_map words_of app combine closed_by]. right. unfold closes_first. cbn [p_breaks p_indent]. unfold breaks_of. cbn [p_line].
      destruct (level_step ss (ln_col l) N) as [S1 S2]. destruct (Nat.ltb_spec 1 (rw - p_line frm)) as [B|B]; [split; [lia|discriminate]|].
      split; [lia|]. intros _ X. assert (N1 : n = 1%Z) by lia. specialize (CB N1 ltac:(rewrite <- HE; unfold rw in *; lia)). rewrite <- HC in CB. specialize (S2 CB). lia.
    + cbn [map snd flat_map words_of app combine sum_indents p_indent].
      rewrite (more_combine _ _ HM), map_app, combine_app, sum_indents_app, row_sum by (rewrite !map_length; reflexivity).
      rewrite E7, <- app_assoc. cbn [app]. lia.
Qed.
Lemma cols_fit_lines cs : forall before, (forall b c a, before ++ cs = b ++ c :: a -> b <> [] -> may_start b c) -> before <> [] -> cols_fit before cs.
Proof.
  induction cs as [|c cs IH]; intros before L N; [exact I|]. split.
  - apply (L before c cs); auto.
  - apply IH; [|destruct before; discriminate]. rewrite <- app_assoc. exact L.
Qed.

Lemma all_show_open (ws : list leaf) : forall e ds e', all_show ops cfg ws e ds e' -> Forall (fun d => 0 <= open_levels ops cfg d)%Z ds.
Proof.
  induction ws as [|w ws IH]; intros e ds e' SH; destruct ds as [|d ds]; try contradiction; [constructor|]. destruct SH as (e1 & S & SH).
  constructor; [apply S|eapply IH; exact SH].
Qed.
Theorem words_render (qs : list quoted) row (ls : list (line_of word)) ds e e' : all_tokens qs = word_tokens row ls -> lines_fit ls ->
  lines_show ops cfg ls e ds e' ->
  exists t, quote qs e = Some (e', t) /\
  outcome (format_items ops cfg string_writer (items t) (formatter_new [])) =
    (text (c_newline cfg) (shown_lines ops cfg [] ds), true) /\
  (match ds with d :: _ => exists y r, doc_items (ln_word d) = y :: r /\ begun y | [] => False end -> text_first t) /\
  (match ds with [] => True | d :: ds' =>
     exists ns, items t = doc_items ns ++ closing (open_levels ops cfg ns) /\ doc_ok ns = true /\ visible_ends (atoms_in ns) /\
     (0 <= open_levels ops cfg ns)%Z /\
     open_levels ops cfg ns = (Z.of_nat (level (map ln_col ds)) + open_levels ops cfg (last (flat_map words_of ds) []))%Z /\
     forall lvl, shown_at ops cfg lvl ns = shown_line ops cfg lvl d ++ shown_from lvl [ln_col d] ds' end).
Proof.
  intros AT L (HO & SH & LC). pose proof (all_show_open _ _ _ _ SH) as NN.
  assert (G : exists ps w, gaps (map fst (word_tokens row ls)) None = Some (ps, w) /\ Forall quiet ps /\
     (forall f base, spread f base (combine (map snd ps) (flat_map words_of ds)) =
       match ds with [] => [] | d :: ds' => gap_text ind f base nothing ++ shown_line ops cfg base d ++ shown_from base [ln_col d] ds' end) /\
     chained (combine (map snd ps) (flat_map words_of ds)) /\
     sum_indents (combine (map snd ps) (flat_map words_of ds)) = Z.of_nat (level (map ln_col ds))).
  { clear SH. destruct ls as [|l ls].
    { destruct ds; [|discriminate]. exists [], None. repeat split; constructor. }
    destruct ds as [|d ds]; [discriminate|]. cbn [map] in HO. pose proof (f_equal (@tl _) HO) as HO'. cbn [tl] in HO'.
    assert (HL : hollow l = hollow d) by congruence. apply hollow_more in HL as (HE & HC & HM).
    cbn [word_tokens map fst gaps enter]. cbv zeta. set (rw := row + ln_empty l). set (c := src_cursor rw (ln_col l) (ln_word l)). cbn [map fst gaps enter].
    change (p_col (c_start c)) with (ln_col l).
    change [ln_col l] with (enclosing [ln_col l]). rewrite map_app, row_gaps.
    assert (F : cols_fit [ln_col l] (map ln_col ls)) by (apply cols_fit_lines; [exact L|discriminate]).
    destruct (words_gaps ls ds (S (p_line (row_end (c_end c) (ln_more l)))) (row_end (c_end c) (ln_more l)) [ln_col l] ltac:(discriminate) eq_refl HO' F)
      as (ps & w & E1 & E3 & E4 & E5 & E6 & E7).
    rewrite E1. eexists; exists w. split; [reflexivity|]. split; [|split; [|split]].
    - constructor; [intros _; reflexivity|]. apply Forall_app. split; auto. apply Forall_forall. intros [a p] I. apply in_map_iff in I as ([g w1] & X & _).
      unfold row_gap in X. injection X as <- <-. intros Q. cbn in *. rewrite Q. reflexivity.
    - intros f base. cbn [map snd flat_map words_of app combine spread p_indent nothing].
      rewrite (more_combine _ _ HM), map_app, combine_app by (rewrite !map_length; reflexivity).
      rewrite spread_app.
      2:{ apply Forall_forall. intros [p s] I. apply in_combine_l in I. apply in_map_iff in I as (ap & <- & I). apply in_map_iff in I as (gw & <- & _). reflexivity. }
      rewrite more_spread, match_same.
      specialize (E4 base). cbn [level Z.of_nat Nat.add] in E4. rewrite Z.add_0_r in E4 |- *. rewrite E4, <- HC. unfold shown_line.
      rewrite <- !app_assoc. reflexivity.
    - destruct LC as (LC & NX & LR). cbn [flat_map] in NN. apply Forall_app in NN as [NN1 NN2]. cbn [map snd flat_map words_of app combine].
      rewrite (more_combine _ _ HM), map_app, combine_app by (rewrite !map_length; reflexivity).
      apply chained_line; [exact LC| |apply E5; assumption].
      destruct (Z.eqb_spec (open_levels ops cfg (last (words_of d) [])) 0) as [Z0|Z0].
      { unfold words_of in Z0. rewrite Z0. destruct (combine _ _) as [|[? ?] ?]; cbn; auto. }
      destruct (Z.ltb_spec 0 (open_levels ops cfg (last (words_of d) []))) as [ZP|ZP]; [|exfalso].
      2:{ assert (IN : In (last (words_of d) []) (words_of d)) by (destruct (@exists_last _ (words_of d) ltac:(discriminate)) as (a & b & X); rewrite X, last_last; apply in_or_app; right; left; reflexivity).
          rewrite Forall_forall in NN1. specialize (NN1 _ IN). lia. }
      apply (E6 _ ZP). destruct ds as [|d' ds']; [exact I|]. cbn [last]. rewrite HC. exact NX.
    - cbn [map snd flat_map words_of app combine sum_indents p_indent nothing].
      rewrite (more_combine _ _ HM), map_app, combine_app, sum_indents_app, row_sum by (rewrite !map_length; reflexivity).
      rewrite E7. cbn [app]. rewrite HC.
      assert (MC : map ln_col ls = map ln_col ds).
      { clear -HO'. revert ds HO'. induction ls as [|a ls IH]; intros [|b ds] H; try discriminate; [reflexivity|]. cbn [map] in *. pose proof (f_equal (@tl _) H) as H'. cbn [tl] in H'.
        assert (HL : hollow a = hollow b) by congruence. apply hollow_more in HL as (_ & HC & _). rewrite HC, (IH ds H'). reflexivity. }
      rewrite MC. change (level [ln_col d]) with 0. lia. }
  destruct G as (ps & w & G & Q & T & CH & SI).
  assert (SH' : all_show ops cfg (map snd (all_tokens qs)) e (flat_map words_of ds) e') by (rewrite AT, word_tokens_leaves; exact SH).
  rewrite <- AT in G. destruct (words_quote qs _ _ _ ps w e e' eq_refl eq_refl G Q SH' CH) as (t & X1 & X2 & X3 & X4). exists t. split; [exact X1|].
  split; [rewrite X2, T|split; [destruct ds; exact X3|]].
  - f_equal. destruct ds as [|d ds]; [reflexivity|]. cbn [shown_lines app level Z.of_nat Nat.add]. rewrite shown_from_0. do 2 f_equal. unfold gap_text. cbn. rewrite app_nil_r. reflexivity.
  - destruct ds as [|d ds]; [exact I|]. destruct (X4 ltac:(discriminate)) as (ns & N1 & N2 & N3 & N4 & N4' & N5). exists ns. repeat (split; [assumption|]).
    split; [rewrite N4', SI; reflexivity|]. intros lvl. rewrite N5, T. reflexivity.
Qed.

(** ** One-line values *)
Lemma inline_from l : forall lvl lvl' gap, Forall (fun a => a_break a = false) (gap ++ l) ->
  layout_from ind false lvl gap l = layout_from ind false lvl' gap l /\ exists s, layout_from ind false lvl gap l = map Ch s.
Proof.
  induction l as [|a l IH]; intros lvl lvl' g F; [split; [reflexivity|exists []; reflexivity]|]. cbn [layout_from].
  destruct (a_text a) as [|c s] eqn:T.
  - apply IH. rewrite <- app_assoc. exact F.
  - assert (FG : Forall (fun a => a_break a = false) g) by (apply Forall_app in F; tauto).
    assert (FL : Forall (fun a => a_break a = false) ([] ++ l)) by (apply Forall_app in F as [_ F]; inversion F; auto).
    assert (NB : existsb a_break g = false).
    { clear -FG. induction FG as [|x g H _ IH]; [reflexivity|]. cbn. rewrite H. exact IH. }
    assert (NL : existsb a_line g = false).
    { clear -FG. induction FG as [|x g H _ IH]; [reflexivity|]. cbn. rewrite IH, orb_false_r. destruct x; auto. }
    unfold separator. rewrite NB, NL. destruct (IH (lvl + net g)%Z (lvl' + net g)%Z [] FL) as [E1 [s1 E2]]. rewrite <- E1. split; [reflexivity|].
    rewrite E2. exists (repeat 32%N (count_spaces g) ++ (c :: s) ++ s1). rewrite !map_app. f_equal. unfold blanks. clear. induction (count_spaces g); cbn; congruence.
Qed.
Lemma layout_visible l : visible_ends l -> layout ind l = layout_from ind false 0 [] l.
Proof.
  intros ((a & l' & -> & V) & _). unfold layout. cbn [layout_from]. unfold visible in V. destruct (a_text a) as [|c s]; [discriminate|].
  cbn [net app]. f_equal. unfold separator. cbn. unfold pad. destruct ind; reflexivity.
Qed.
Lemma inline_shown ns lvl : visible_ends (atoms_in ns) -> inline ops cfg ns -> shown_at ops cfg lvl ns = map Ch (string_of ops cfg ns).
Proof.
  intros V I. unfold shown_at, string_of. rewrite (layout_visible _ V). destruct (inline_from (atoms_in ns) lvl 0%Z [] I) as [-> _].
  destruct (inline_from (atoms_in ns) 0%Z 0%Z [] I) as [_ [s ->]]. rewrite text_chars. reflexivity.
Qed.
Definition docs_ok (P : doc -> Prop) (ds : list (line_of doc)) : Prop := Forall P (flat_map words_of ds).
Lemma all_show_visible (ws : list leaf) : forall e ds e', all_show ops cfg ws e ds e' -> Forall (fun d => visible_ends (atoms_in d)) ds.
Proof.
  induction ws as [|w ws IH]; intros e ds e' SH; destruct ds as [|d ds]; try contradiction; [constructor|]. destruct SH as (e1 & S & SH).
  constructor; [apply S|eapply IH; exact SH].
Qed.
Lemma inline_line lvl (d : line_of doc) : Forall (fun d => visible_ends (atoms_in d) /\ inline ops cfg d) (words_of d) ->
  shown_line ops cfg lvl d = map Ch (line_text (as_source ops cfg d)).
Proof.
  intros F. inversion F as [|? ? [V I] F']; subst. unfold shown_line, line_text. cbn [as_source sl_word sl_more]. rewrite inline_shown, map_app by auto. f_equal.
  clear -F'. induction (ln_more d) as [|[g ns] m IH]; [reflexivity|]. cbn [map snd] in F'. inversion F' as [|? ? [V I] F2]; subst.
  cbn [flat_map map]. rewrite (IH F2), inline_shown, !map_app by auto. f_equal. f_equal. destruct (g =? 0); reflexivity.
Qed.
Lemma inline_rest (ds : list (line_of doc)) : docs_ok (fun d => visible_ends (atoms_in d) /\ inline ops cfg d) ds -> forall before, before <> [] ->
  shown_lines ops cfg (map sl_col before) ds = rest_out cfg (map sl_col before) (map (as_source ops cfg) ds).
Proof.
  induction ds as [|d ds IH]; intros F before N; [reflexivity|]. unfold docs_ok in F. cbn [flat_map] in F. apply Forall_app in F as [F1 F2].
  cbn [shown_lines rest_out map]. cbn [as_source sl_col]. cbv zeta. fold (as_source ops cfg d). rewrite (inline_line _ d F1).
  specialize (IH F2 (before ++ [as_source ops cfg d]) ltac:(destruct before; discriminate)). rewrite map_app in IH. cbn [map as_source sl_col] in IH. rewrite IH.
  destruct before as [|b before]; [congruence|]. cbn [map]. unfold line_sep. cbn [as_source sl_empty]. reflexivity.
Qed.
Theorem inline_lines (ds : list (line_of doc)) : docs_ok (fun d => visible_ends (atoms_in d) /\ inline ops cfg d) ds ->
  text (c_newline cfg) (shown_lines ops cfg [] ds) = join (c_newline cfg) (output_lines ind [] (map (as_source ops cfg) ds)).
Proof.
  intros F. destruct ds as [|d ds]; [reflexivity|]. unfold docs_ok in F. cbn [flat_map] in F. apply Forall_app in F as [F1 F2].
  cbn [shown_lines output_lines map app]. rewrite rest_join by discriminate.
  rewrite <- (inline_rest ds F2 [as_source ops cfg d] ltac:(discriminate)). cbn [map as_source sl_col]. fold (as_source ops cfg d).
  rewrite (inline_line _ d F1). rewrite !text_app, pad_text, !text_chars, <- !app_assoc. reflexivity.
Qed.

(** ** Blocks *)
Lemma shift_rest_twice p q ls : shift_rest p (shift_rest q ls) = shift_rest (p ++ q) ls.
Proof.
  destruct ls as [|l ls]; [reflexivity|]. cbn. f_equal. rewrite map_map. apply map_ext. intros [|c s]; [reflexivity|]. cbn [indent_line].
  destruct (q ++ c :: s) as [|d r] eqn:Q; [destruct q; discriminate|]. cbn [indent_line]. rewrite <- Q, app_assoc. reflexivity.
Qed.
Lemma shift_rest_nil ls : shift_rest [] ls = ls.
Proof. destruct ls as [|l ls]; [reflexivity|]. cbn. f_equal. rewrite <- map_id. apply map_ext. intros []; reflexivity. Qed.
Lemma indent_zero : indent_text ind 0 = [].
Proof. unfold indent_text. destruct ind; reflexivity. Qed.
Lemma glue_nil o : glue [] (sym_lines o) = sym_lines o.
Proof. unfold glue. pose proof (sym_lines_nonempty o). destruct (sym_lines o); [congruence|reflexivity]. Qed.
Lemma upright_shown (n : nat) ns : visible_ends (atoms_in ns) -> upright ops cfg ns ->
  sym_lines (shown_at ops cfg (Z.of_nat n) ns) = shift_rest (indent_text ind (Z.of_nat n)) (block_of ops cfg ns).
Proof.
  intros V U. unfold shown_at, block_of. rewrite (layout_visible _ V). induction n as [|n IH].
  - cbn [Z.of_nat]. rewrite indent_zero, shift_rest_nil. reflexivity.
  - assert (LO : levels_ok (Z.of_nat n) ([] ++ atoms_in ns)).
    { intros p q H. specialize (U p q H). lia. }
    pose proof (lines_shift ind (atoms_in ns) [] (Z.of_nat n) [] LO) as SH. unfold lines_after in SH. rewrite !glue_nil in SH.
    replace (Z.of_nat (S n)) with (1 + Z.of_nat n)%Z by lia. rewrite SH, IH, shift_rest_twice. f_equal. symmetry. apply indent_text_add; lia.
Qed.
Lemma sym_lines_app a b : sym_lines (a ++ b) = beside (sym_lines a) 0 (sym_lines b).
Proof.
  pose proof (sym_lines_nonempty b) as NB. induction a as [|[c|] a IH].
  - cbn. destruct (sym_lines b); [congruence|reflexivity].
  - cbn [app sym_lines]. rewrite IH. pose proof (sym_lines_nonempty a) as NA. destruct (sym_lines a) as [|x [|y r]]; [congruence| |].
    + cbn. destruct (sym_lines b); [congruence|reflexivity].
    + reflexivity.
  - cbn [app sym_lines]. rewrite IH. pose proof (sym_lines_nonempty a) as NA. destruct (sym_lines a) as [|x r]; [congruence|reflexivity].
Qed.
Lemma beside_gap a g b : a <> [] -> b <> [] -> beside a 0 (beside [if g =? 0 then [] else $" "] 0 b) = beside a g b.
Proof.
  intros NA NB. destruct b as [|y b]; [congruence|]. induction a as [|x a IH]; [congruence|]. destruct a as [|z a].
  - cbn. destruct (g =? 0); reflexivity.
  - cbn [beside] in *. f_equal. apply IH. discriminate.
Qed.
Lemma beside_nonempty a g b : a <> [] -> beside a g b <> [].
Proof. destruct a as [|x [|y a]]; [congruence|intros _; destruct b; discriminate|discriminate]. Qed.
Definition sound (a : list str) : Prop := a <> [] /\ last a [] <> [].
Lemma beside_sound a g b : sound a -> sound b -> sound (beside a g b).
Proof.
  intros [NA LA] [NB LB]. split; [apply beside_nonempty; exact NA|]. destruct b as [|y b]; [congruence|].
  induction a as [|x a IH]; [congruence|]. destruct a as [|z a].
  - cbn [beside]. destruct b as [|w b]; [|exact LB]. cbn in *. destruct x; [congruence|discriminate].
  - assert (IHc : last (beside (z :: a) g (y :: b)) [] <> []) by (apply IH; [discriminate|exact LA]).
    pose proof (beside_nonempty (z :: a) g (y :: b) ltac:(discriminate)) as NE.
    change (beside (x :: z :: a) g (y :: b)) with (x :: beside (z :: a) g (y :: b)).
    destruct (beside (z :: a) g (y :: b)); [congruence|exact IHc].
Qed.
Lemma beside_indent p a g y b : sound a -> y <> [] -> beside (map (indent_line p) a) g (y :: map (indent_line p) b) = map (indent_line p) (beside a g (y :: b)).
Proof.
  intros [NA LA] NY. induction a as [|x a IH]; [congruence|]. destruct a as [|z a].
  - cbn in *. f_equal. rewrite (indent_line_some p x) by exact LA. rewrite indent_line_some; [rewrite <- !app_assoc; reflexivity|]. destruct x; [congruence|discriminate].
  - change (beside (x :: z :: a) g (y :: b)) with (x :: beside (z :: a) g (y :: b)). cbn [map]. rewrite <- (IH ltac:(discriminate) LA). reflexivity.
Qed.
Lemma block_sound ns : visible_ends (atoms_in ns) -> sound (block_of ops cfg ns) /\ hd [] (block_of ops cfg ns) <> [].
Proof.
  intros V. unfold block_of. rewrite (layout_visible _ V). destruct V as ((a & l & EA & VA) & (l' & z & EZ & VZ)). split.
  - split; [apply sym_lines_nonempty|]. rewrite EZ. unfold visible in VZ.
    assert (X : forall f g lvl, exists o c, layout_from ind f lvl g (l' ++ [z]) = o ++ [Ch c]).
    { clear -VZ. induction l' as [|b l IH]; intros f g lvl.
      - cbn [app layout_from]. destruct (a_text z) as [|c s]; [discriminate|]. cbv zeta. cbn [layout_from]. rewrite app_nil_r.
        destruct (@exists_last _ (c :: s) ltac:(discriminate)) as (s' & d & ->). exists (separator ind f (lvl + net g) g ++ map Ch s'), d.
        rewrite map_app, <- app_assoc. reflexivity.
      - cbn [app layout_from]. destruct (a_text b) as [|c s]; [apply IH|]. destruct (IH false [] (lvl + net g)%Z) as (o & d & ->).
        exists (separator ind f (lvl + net g) g ++ map Ch (c :: s) ++ o), d. rewrite <- !app_assoc. reflexivity. }
    destruct (X false [] 0%Z) as (o & c & ->). clear. induction o as [|[d|] o IH]; [discriminate| |].
    + cbn [app sym_lines]. pose proof (sym_lines_nonempty (o ++ [Ch c])) as N. destruct (sym_lines (o ++ [Ch c])) as [|x [|y r]]; [congruence| |exact IH]. discriminate.
    + cbn [app sym_lines]. pose proof (sym_lines_nonempty (o ++ [Ch c])) as N. destruct (sym_lines (o ++ [Ch c])) as [|x r]; [congruence|exact IH].
  - rewrite EA. cbn [layout_from]. unfold visible in VA. destruct (a_text a) as [|c s]; [discriminate|]. cbn.
    destruct (sym_lines _) as [|x r]; discriminate.
Qed.
Lemma pad_line (n : nat) : sym_lines (pad ind (Z.of_nat n)) = [indent_text ind (Z.of_nat n)].
Proof.
  unfold pad, indent_text. replace (Z.max 0 (Z.of_nat n)) with (Z.max (Z.of_nat n) 0) by lia.
  assert (R : forall c k, sym_lines (repeat (Ch c) k) = [repeat c k]) by (clear; induction k; cbn; [reflexivity|rewrite IHk; reflexivity]).
  destruct ind; apply R.
Qed.
Lemma upright_steady ns : visible_ends (atoms_in ns) -> upright ops cfg ns -> steady ops cfg ns.
Proof.
  intros V U n. rewrite sym_lines_app, pad_line, upright_shown by assumption. destruct (block_sound ns V) as [_ HB].
  destruct (block_of ops cfg ns) as [|x r]; [contradiction HB; reflexivity|]. cbn [hd] in HB. cbn [shift_rest beside map]. rewrite indent_line_some by exact HB. reflexivity.
Qed.
(** Without the indentation of the first line. *)
Lemma unpad (n : nat) o ls : hd [] ls <> [] -> sym_lines (pad ind (Z.of_nat n) ++ o) = map (indent_line (indent_text ind (Z.of_nat n))) ls ->
  sym_lines o = shift_rest (indent_text ind (Z.of_nat n)) ls.
Proof.
  intros N H. rewrite sym_lines_app, pad_line in H. pose proof (sym_lines_nonempty o) as NO. destruct (sym_lines o) as [|y r]; [congruence|].
  destruct ls as [|x ls]; [contradiction N; reflexivity|]. cbn [hd beside map Nat.eqb app] in *. rewrite indent_line_some in H by exact N. injection H as H1 H2.
  apply app_inv_head in H1. cbn [shift_rest]. congruence.
Qed.
Lemma block_shown (n : nat) ns : visible_ends (atoms_in ns) -> steady ops cfg ns ->
  sym_lines (shown_at ops cfg (Z.of_nat n) ns) = shift_rest (indent_text ind (Z.of_nat n)) (block_of ops cfg ns).
Proof. intros V U. apply unpad; [apply block_sound; exact V|apply U]. Qed.
Lemma block_line (n : nat) (d : line_of doc) : Forall (fun d => visible_ends (atoms_in d) /\ steady ops cfg d) (words_of d) ->
  sym_lines (pad ind (Z.of_nat n) ++ shown_line ops cfg (Z.of_nat n) d) =
    map (indent_line (indent_text ind (Z.of_nat n))) (side_by_side (block_of ops cfg (ln_word d)) (map (fun '(g, ns) => (g, block_of ops cfg ns)) (ln_more d))) /\
  sound (side_by_side (block_of ops cfg (ln_word d)) (map (fun '(g, ns) => (g, block_of ops cfg ns)) (ln_more d))).
Proof.
  intros F. inversion F as [|? ? [V U] F']; subst. unfold shown_line, side_by_side. set (il := indent_line (indent_text ind (Z.of_nat n))).
  assert (GEN : forall more X A, Forall (fun d => visible_ends (atoms_in d) /\ steady ops cfg d) (map snd more) -> sound A -> sym_lines X = map il A ->
    sym_lines (X ++ flat_map (fun '(g, ns) => (if g =? 0 then [] else [Ch 32]) ++ shown_at ops cfg (Z.of_nat n) ns) more) =
    map il (fold_left (fun a '(g, b) => beside a g b) (map (fun '(g, ns) => (g, block_of ops cfg ns)) more) A) /\
    sound (fold_left (fun a '(g, b) => beside a g b) (map (fun '(g, ns) => (g, block_of ops cfg ns)) more) A)).
  { clear. induction more as [|[g ns] more IH]; intros X A FM SA SX; [cbn; rewrite app_nil_r; auto|].
    cbn [map snd] in FM. inversion FM as [|? ? [V U] FM']; subst. cbn [flat_map map fold_left]. rewrite app_assoc. apply IH; [exact FM'| |].
    - apply beside_sound; [exact SA|]. apply block_sound. exact V.
    - rewrite sym_lines_app, SX, sym_lines_app. destruct (block_sound ns V) as [[NB LB] HB].
      assert (NS : sym_lines (shown_at ops cfg (Z.of_nat n) ns) <> []) by apply sym_lines_nonempty.
      assert (GS : sym_lines (if g =? 0 then [] else [Ch 32]) = [if g =? 0 then [] else $" "]) by (destruct (g =? 0); reflexivity).
      assert (NM : map il A <> []) by (destruct SA as [NA _]; destruct A; [congruence|discriminate]).
      rewrite GS, (beside_gap _ _ _ NM NS).
      rewrite block_shown by auto. destruct (block_of ops cfg ns) as [|y b]; [congruence|]. cbn [shift_rest hd] in *.
      apply beside_indent; auto. }
  destruct (GEN (ln_more d) (pad ind (Z.of_nat n) ++ shown_at ops cfg (Z.of_nat n) (ln_word d)) (block_of ops cfg (ln_word d)) F') as [G1 G2].
  - apply block_sound. exact V.
  - destruct (block_sound _ V) as [[NB LB] HB]. rewrite sym_lines_app, block_shown by auto.
    assert (PD := pad_line n).
    rewrite PD. destruct (block_of ops cfg (ln_word d)) as [|y b]; [congruence|]. cbn [shift_rest beside hd map] in *. f_equal. unfold il. rewrite indent_line_some by exact HB. reflexivity.
  - rewrite <- app_assoc in G1. split; assumption.
Qed.
Lemma beside_empty a b : a <> [] -> beside a 0 ([] :: b) = a ++ b.
Proof. intros N. induction a as [|x a IH]; [congruence|]. destruct a as [|z a]; [cbn; rewrite app_nil_r; reflexivity|]. cbn [beside app] in *. f_equal. apply IH. discriminate. Qed.
Notation blocked := (map (map_line (block_of ops cfg))).
Lemma block_rest (ds : list (line_of doc)) : docs_ok (fun d => visible_ends (atoms_in d) /\ steady ops cfg d) ds -> forall before, before <> [] ->
  sym_lines (shown_lines ops cfg before ds) = [] :: block_lines ind before (blocked ds).
Proof.
  induction ds as [|d ds IH]; intros F before N; [reflexivity|]. unfold docs_ok in F. cbn [flat_map] in F. apply Forall_app in F as [F1 F2].
  cbn [shown_lines block_lines map]. cbv zeta. cbn [map_line ln_empty ln_col ln_word ln_more].
  assert (X : sym_lines (pad ind (Z.of_nat (level (before ++ [ln_col d]))) ++ shown_line ops cfg (Z.of_nat (level (before ++ [ln_col d]))) d ++ shown_lines ops cfg (before ++ [ln_col d]) ds) =
    map (indent_line (indent_text ind (Z.of_nat (level (before ++ [ln_col d])))))
      (side_by_side (block_of ops cfg (ln_word d)) (map (fun '(g, ns) => (g, block_of ops cfg ns)) (ln_more d))) ++
    block_lines ind (before ++ [ln_col d]) (blocked ds)).
  { rewrite app_assoc, sym_lines_app. destruct (block_line (level (before ++ [ln_col d])) d F1) as [B1 [B2 _]]. rewrite B1.
    rewrite (IH F2) by (destruct before; discriminate). apply beside_empty. 
    destruct (side_by_side _ _); [congruence|discriminate]. }
  destruct before as [|b before]; [congruence|]. destruct (ln_empty d =? 0); cbn [app sym_lines] in *; rewrite X; reflexivity.
Qed.
(** Lines at a base level. *)
Lemma indent_twice (n k : nat) ls : map (indent_line (indent_text ind (Z.of_nat n))) (map (indent_line (indent_text ind (Z.of_nat k))) ls) =
  map (indent_line (indent_text ind (Z.of_nat n + Z.of_nat k))) ls.
Proof.
  rewrite map_map. apply map_ext. intros [|c l]; [reflexivity|]. rewrite indent_text_add by lia.
  rewrite (indent_line_some (indent_text ind (Z.of_nat k))), (indent_line_some (_ ++ _)) by discriminate. rewrite indent_line_some, <- app_assoc; [reflexivity|].
  destruct (indent_text ind (Z.of_nat k)); discriminate.
Qed.
Lemma block_from (n : nat) (ds : list (line_of doc)) : docs_ok (fun d => visible_ends (atoms_in d) /\ steady ops cfg d) ds -> forall before, before <> [] ->
  sym_lines (shown_from (Z.of_nat n) before ds) = [] :: map (indent_line (indent_text ind (Z.of_nat n))) (block_lines ind before (blocked ds)).
Proof.
  induction ds as [|d ds IH]; intros F before N; [reflexivity|]. unfold docs_ok in F. cbn [flat_map] in F. apply Forall_app in F as [F1 F2].
  cbn [shown_from block_lines map]. cbv zeta. cbn [map_line ln_empty ln_col ln_word ln_more]. set (k := level (before ++ [ln_col d])).
  assert (X : sym_lines (pad ind (Z.of_nat n + Z.of_nat k) ++ shown_line ops cfg (Z.of_nat n + Z.of_nat k) d ++ shown_from (Z.of_nat n) (before ++ [ln_col d]) ds) =
    map (indent_line (indent_text ind (Z.of_nat n))) (map (indent_line (indent_text ind (Z.of_nat k)))
      (side_by_side (block_of ops cfg (ln_word d)) (map (fun '(g, ns) => (g, block_of ops cfg ns)) (ln_more d)))) ++
    map (indent_line (indent_text ind (Z.of_nat n))) (block_lines ind (before ++ [ln_col d]) (blocked ds))).
  { rewrite indent_twice. replace (Z.of_nat n + Z.of_nat k)%Z with (Z.of_nat (n + k)) by lia.
    rewrite app_assoc, sym_lines_app. destruct (block_line (n + k) d F1) as [B1 [B2 _]]. rewrite B1.
    rewrite (IH F2) by (destruct before; discriminate). apply beside_empty. 
    destruct (side_by_side _ _); [congruence|discriminate]. }
  destruct before as [|b before]; [congruence|]. rewrite !map_app. destruct (ln_empty d =? 0); cbn [app sym_lines map indent_line] in *; rewrite X; reflexivity.
Qed.
Theorem nested_block ns d (ds : list (line_of doc)) : docs_ok (fun d => visible_ends (atoms_in d) /\ steady ops cfg d) (d :: ds) -> visible_ends (atoms_in ns) ->
  (forall lvl, shown_at ops cfg lvl ns = shown_line ops cfg lvl d ++ shown_from lvl [ln_col d] ds) ->
  block_of ops cfg ns = block_lines ind [] (blocked (d :: ds)) /\ steady ops cfg ns.
Proof.
  intros F V H. unfold docs_ok in F. cbn [flat_map] in F. apply Forall_app in F as [F1 F2].
  assert (X : forall n : nat, sym_lines (pad ind (Z.of_nat n) ++ shown_at ops cfg (Z.of_nat n) ns) =
    map (indent_line (indent_text ind (Z.of_nat n))) (block_lines ind [] (blocked (d :: ds)))).
  { intros n. rewrite H, app_assoc, sym_lines_app. destruct (block_line n d F1) as [B1 [B2 _]]. rewrite B1, (block_from n ds F2) by discriminate.
    cbn [block_lines map app map_line ln_empty ln_col ln_word ln_more level Nat.add Z.of_nat]. rewrite map_app, beside_empty by (destruct (side_by_side _ _); [congruence|discriminate]).
    f_equal. rewrite indent_zero. f_equal. rewrite <- (map_id (side_by_side _ _)) at 1. apply map_ext. intros []; reflexivity. }
  assert (B : block_of ops cfg ns = block_lines ind [] (blocked (d :: ds))).
  { unfold block_of. rewrite (layout_visible _ V). specialize (X 0). cbn [Z.of_nat] in X. unfold shown_at in X. rewrite indent_zero in X.
    assert (P0 : pad ind 0 = []) by (unfold pad; destruct ind; reflexivity). rewrite P0 in X. cbn [app] in X. rewrite X.
    rewrite (map_ext _ (fun x => x)), map_id; [reflexivity|intros []; reflexivity]. }
  split; [exact B|]. intros n. rewrite X, B. reflexivity.
Qed.
Theorem blocks_lines (ds : list (line_of doc)) : ds <> [] -> docs_ok (fun d => visible_ends (atoms_in d) /\ steady ops cfg d) ds ->
  sym_lines (shown_lines ops cfg [] ds) = block_lines ind [] (blocked ds).
Proof.
  intros N F. destruct ds as [|d ds]; [congruence|]. unfold docs_ok in F. cbn [flat_map] in F. apply Forall_app in F as [F1 F2].
  cbn [shown_lines block_lines map app]. cbn [map_line ln_empty ln_col ln_word ln_more]. rewrite app_assoc, sym_lines_app.
  destruct (block_line (level [ln_col d]) d F1) as [B1 [B2 _]]. cbv zeta. rewrite B1. rewrite (block_rest ds F2) by discriminate. apply beside_empty.
  destruct (side_by_side _ _); [congruence|discriminate].
Qed.
End WordsFacts.
