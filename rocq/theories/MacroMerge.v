(** * Lemmas: joining static texts does not change the output. *)
From Verif Require Import Str Tokens SpecTokens TokensRun TokensFacts Values ValuesFacts Fmt SpecFmt LayoutFacts RenderFacts HistoryFacts OutputFacts
  Macro SpecMacro SpecQuote MacroFacts MacroSem MacroTokens MacroControl MacroStrings.

Section Merge.
Context {LI E : Type}.
Notation stmt := (stmt LI E). Notation quoted := (quoted_item LI E). Notation cchunk := (cchunk LI E).

(** ** Whitespace fits anywhere in a document *)
Section Induction.
Context (P : node LI -> Prop) (R : part LI -> Prop)
  (HI : forall x, P (NItem x)) (HS : forall e ps, Forall R ps -> P (NString e ps))
  (HP : forall x, R (PItem x)) (HQ : forall xs, R (PQuoted xs)) (HE : forall ns, Forall P ns -> R (SpecFmt.PEval ns)).
Fixpoint node_all (n : node LI) : P n :=
  match n with
  | NItem x => HI x
  | NString e ps => HS e ps ((fix go (l : list (part LI)) : Forall R l := match l with [] => Forall_nil _ | x :: l' => Forall_cons _ (part_all x) (go l') end) ps)
  end
with part_all (p : part LI) : R p :=
  match p with
  | PItem x => HP x
  | PQuoted xs => HQ xs
  | SpecFmt.PEval ns => HE ns ((fix go (l : list (node LI)) : Forall P l := match l with [] => Forall_nil _ | x :: l' => Forall_cons _ (node_all x) (go l') end) ns)
  end.
End Induction.
Definition blank (x : item LI) : Prop := piece_of x = [].
Lemma blank_plain x : blank x -> plain x = true.
Proof. destruct x; intros H; try discriminate H; reflexivity. Qed.
Lemma blanks_plain bs : Forall blank bs -> forallb plain bs = true.
Proof. induction 1; cbn; [reflexivity|]. rewrite blank_plain by auto. auto. Qed.
Lemma piece_first (xs : list (item LI)) p rest : pieces xs = p :: rest -> exists bs y xs', xs = bs ++ y :: xs' /\ Forall blank bs /\ piece_of y = [p] /\ pieces xs' = rest.
Proof.
  assert (O : forall x : item LI, piece_of x = [] \/ exists p, piece_of x = [p]) by (intros []; cbn; eauto).
  induction xs as [|x xs IH]; intros H; [discriminate|]. change (pieces (x :: xs)) with (piece_of x ++ pieces xs) in H.
  destruct (O x) as [OX|[q OX]]; rewrite OX in H.
  - destruct (IH H) as (bs & y & xs' & -> & ? & ? & ?). exists (x :: bs), y, xs'. repeat split; auto.
  - cbn in H. injection H as -> H. exists [], x, xs. repeat split; auto.
Qed.
Definition fill_node (n : node LI) : Prop := node_ok n = true -> node_flags n -> forall xs rest, pieces xs = pieces (node_items n) ++ rest ->
  exists ns xs', xs = doc_items ns ++ xs' /\ doc_ok ns = true /\ Forall node_flags ns /\ pieces xs' = rest.
Definition fill_part (n : part LI) : Prop := part_ok n = true -> part_flags n -> forall xs rest, pieces xs = pieces (part_items n) ++ rest ->
  exists ps xs', xs = flat_map part_items ps ++ xs' /\ forallb part_ok ps = true /\ Forall part_flags ps /\
  existsb (fun p => match p with SpecFmt.PEval _ => true | _ => false end) ps = existsb (fun p => match p with SpecFmt.PEval _ => true | _ => false end) [n] /\ pieces xs' = rest.
Lemma nodes_plain (bs : list (item LI)) : forallb plain bs = true -> doc_items (map NItem bs) = bs /\ doc_ok (map NItem bs) = true /\ Forall node_flags (map NItem bs).
Proof.
  intros H. unfold doc_items, doc_ok. split; [clear H; induction bs; cbn; congruence|]. split; [rewrite <- H; clear H; induction bs; cbn; congruence|].
  clear H. induction bs; constructor; auto. exact I.
Qed.
Lemma parts_plain (bs : list (item LI)) : forallb plain bs = true -> flat_map part_items (map PItem bs) = bs /\ forallb part_ok (map PItem bs) = true /\
  Forall part_flags (map PItem bs) /\ existsb (fun p => match p with SpecFmt.PEval _ => true | _ => false end) (map PItem bs) = false.
Proof.
  intros H. split; [clear H; induction bs; cbn; congruence|]. split; [rewrite <- H; clear H; induction bs; cbn; congruence|].
  split; clear H; induction bs; cbn; auto. constructor; auto. exact I.
Qed.
Lemma string_snoc a e ps : doc_items (a ++ [NString e ps]) = doc_items a ++ OpenQuote e :: flat_map part_items ps ++ [@CloseQuote LI] /\
  doc_ok (a ++ [NString e ps]) = doc_ok a && forallb part_ok ps.
Proof. unfold doc_items, doc_ok. rewrite flat_map_app, forallb_app. split; [f_equal; apply app_nil_r|f_equal; apply andb_true_r]. Qed.
Lemma quoted_snoc a xs : flat_map part_items (a ++ [PQuoted xs]) = flat_map part_items a ++ OpenQuote false :: xs ++ [@CloseQuote LI] /\
  forallb part_ok (a ++ [PQuoted xs]) = forallb part_ok a && forallb plain xs.
Proof. rewrite flat_map_app, forallb_app. split; [f_equal; apply app_nil_r|f_equal; apply andb_true_r]. Qed.
Lemma eval_snoc a ns : flat_map part_items (a ++ [SpecFmt.PEval ns]) = flat_map part_items a ++ OpenEval :: doc_items ns ++ [@CloseEval LI] /\
  forallb part_ok (a ++ [SpecFmt.PEval ns]) = forallb part_ok a && doc_ok ns.
Proof. rewrite flat_map_app, forallb_app. split; [f_equal; apply app_nil_r|f_equal; apply andb_true_r]. Qed.
Lemma fill_nodes ns : Forall fill_node ns -> doc_ok ns = true -> Forall node_flags ns -> forall xs rest, pieces xs = pieces (doc_items ns) ++ rest ->
  exists ns' xs', xs = doc_items ns' ++ xs' /\ doc_ok ns' = true /\ Forall node_flags ns' /\ pieces xs' = rest.
Proof.
  induction 1 as [|n ns H _ IH]; intros O F xs rest P.
  - exists [], xs. repeat split; auto.
  - unfold doc_ok in O. cbn in O. apply andb_prop in O as [O1 O2]. inversion F; subst. unfold doc_items in P. cbn [flat_map] in P. rewrite pieces_app, <- app_assoc in P.
    destruct (H O1 H2 _ _ P) as (n1 & x1 & -> & A1 & A2 & A3). destruct (IH O2 H3 _ _ A3) as (n2 & x2 & -> & B1 & B2 & B3).
    exists (n1 ++ n2), x2. unfold doc_items, doc_ok in *. rewrite flat_map_app, forallb_app, A1, B1, app_assoc. repeat split; auto. apply Forall_app; auto.
Qed.
Lemma fill_parts ps : Forall fill_part ps -> forallb part_ok ps = true -> Forall part_flags ps -> forall xs rest, pieces xs = pieces (flat_map part_items ps) ++ rest ->
  exists ps' xs', xs = flat_map part_items ps' ++ xs' /\ forallb part_ok ps' = true /\ Forall part_flags ps' /\
  existsb (fun p => match p with SpecFmt.PEval _ => true | _ => false end) ps' = existsb (fun p => match p with SpecFmt.PEval _ => true | _ => false end) ps /\ pieces xs' = rest.
Proof.
  induction 1 as [|n ns H _ IH]; intros O F xs rest P.
  - exists [], xs. repeat split; auto.
  - cbn [forallb] in O. apply andb_prop in O as [O1 O2]. inversion F; subst. cbn [flat_map] in P. rewrite pieces_app, <- app_assoc in P.
    destruct (H O1 H2 _ _ P) as (n1 & x1 & -> & A1 & A2 & A4 & A3). destruct (IH O2 H3 _ _ A3) as (n2 & x2 & -> & B1 & B2 & B4 & B3).
    exists (n1 ++ n2), x2. rewrite flat_map_app, forallb_app, A1, B1, app_assoc, existsb_app, A4, B4. cbn [existsb]. rewrite orb_false_r.
    repeat split; auto. apply Forall_app; auto.
Qed.
Lemma fill_all : (forall n, fill_node n) /\ (forall p, fill_part p).
Proof.
  assert (K : forall (xs : list (item LI)) p q, piece_of p = [q] -> forall rest, pieces xs = pieces [p] ++ rest -> exists bs y xs', xs = bs ++ y :: xs' /\ Forall blank bs /\ piece_of y = [q] /\ pieces xs' = rest).
  { intros xs p q Q rest H. apply piece_first. rewrite H. cbn. rewrite Q. reflexivity. }
  assert (HI : forall x, fill_node (NItem x)).
  { intros x O _ xs rest P. cbn [node_items] in P. assert (D : piece_of x = [] \/ exists p, piece_of x = [p]) by (destruct x; cbn; eauto).
    destruct D as [D|[q D]]; [exists [], xs; cbn in P; rewrite D in P; repeat split; auto|].
    destruct (K _ _ _ D _ P) as (bs & y & xs' & -> & BB & Y & Q).
    destruct (nodes_plain (bs ++ [y])) as (N1 & N2 & N3).
    { rewrite forallb_app, blanks_plain by auto. cbn. rewrite andb_true_r. cbn in O. destruct x; cbn in *; try discriminate O; destruct y; cbn in *; try reflexivity; try discriminate; congruence. }
    exists (map NItem (bs ++ [y])), xs'. rewrite N1, <- app_assoc. repeat split; auto. }
  assert (HP : forall x, fill_part (PItem x)).
  { intros x O _ xs rest P. cbn [part_items] in P. assert (D : piece_of x = [] \/ exists p, piece_of x = [p]) by (destruct x; cbn; eauto).
    destruct D as [D|[q D]]; [exists [], xs; cbn in P; rewrite D in P; repeat split; auto|].
    destruct (K _ _ _ D _ P) as (bs & y & xs' & -> & BB & Y & Q).
    destruct (parts_plain (bs ++ [y])) as (N1 & N2 & N3 & N4).
    { rewrite forallb_app, blanks_plain by auto. cbn. rewrite andb_true_r. cbn in O. destruct x; cbn in *; try discriminate O; destruct y; cbn in *; try reflexivity; try discriminate; congruence. }
    exists (map PItem (bs ++ [y])), xs'. rewrite N1, <- app_assoc. repeat split; auto. }
  assert (HS : forall e ps, Forall fill_part ps -> fill_node (NString e ps)).
  { intros e ps IH O [F1 F2] xs rest P. change (pt_all ps) in F2. rewrite pt_all_forall in F2. change (forallb part_ok ps = true) in O.
    change (pieces xs = pieces ([@OpenQuote LI e] ++ flat_map part_items ps ++ [CloseQuote]) ++ rest) in P.
    rewrite !pieces_app, <- !app_assoc in P. destruct (K _ (OpenQuote e) (POpenQuote e) eq_refl _ P) as (bs & y & xs' & -> & BB & Y & Q).
    destruct (fill_parts ps IH O F2 _ _ Q) as (ps' & xs2 & -> & A1 & A2 & A3 & A4).
    destruct (K _ CloseQuote PCloseQuote eq_refl _ A4) as (cs & z & xs3 & -> & CC & Z & Q2).
    assert (EY : y = OpenQuote e) by (destruct y; cbn in Y; try discriminate Y; congruence).
    assert (EZ : z = CloseQuote) by (destruct z; cbn in Z; try discriminate Z; congruence). subst y z.
    destruct (nodes_plain bs (blanks_plain _ BB)) as (N1 & N2 & N3). destruct (parts_plain cs (blanks_plain _ CC)) as (M1 & M2 & M3 & M4).
    exists (map NItem bs ++ [NString e (ps' ++ map PItem cs)]), xs3. destruct (string_snoc (map NItem bs) e (ps' ++ map PItem cs)) as [-> ->].
    rewrite N1, N2, flat_map_app, M1, forallb_app, A1, M2. split; [rewrite <- !app_assoc; cbn; rewrite <- !app_assoc; reflexivity|]. split; [reflexivity|]. split; [|exact Q2].
    apply Forall_app. split; [auto|]. constructor; [|constructor]. split; [rewrite existsb_app, A3, M4, orb_false_r; exact F1|].
    change (pt_all (ps' ++ map PItem cs)). apply pt_all_forall. apply Forall_app; auto. }
  assert (HQ : forall xs, fill_part (PQuoted xs)).
  { intros qs O _ xs rest P. cbn [part_ok] in O.
    change (pieces xs = pieces ([@OpenQuote LI false] ++ qs ++ [CloseQuote]) ++ rest) in P.
    rewrite !pieces_app, <- !app_assoc in P. destruct (K _ (OpenQuote false) (POpenQuote false) eq_refl _ P) as (bs & y & xs' & -> & BB & Y & Q).
    assert (F : forall qs, forallb plain qs = true -> forall (xs : list (item LI)) rest, pieces xs = pieces qs ++ rest ->
      exists ys xs2, xs = ys ++ xs2 /\ forallb plain ys = true /\ pieces xs2 = rest).
    { clear -HI. intros qs O xs rest P. destruct (nodes_plain qs O) as (N1 & N2 & N3). rewrite <- N1 in P.
      assert (FF : Forall fill_node (map NItem qs)) by (apply Forall_forall; intros n Hn; apply in_map_iff in Hn as (x & <- & _); apply HI).
      revert xs P. induction qs as [|q qs IH]; intros xs P; [exists [], xs; repeat split; auto|].
      cbn in O. apply andb_prop in O as [O1 O2]. unfold doc_items in P. cbn [map flat_map node_items] in P. rewrite pieces_app, <- app_assoc in P.
      assert (O3 : plain q = true) by exact O1.
      assert (H : exists ys xs2, xs = ys ++ xs2 /\ forallb plain ys = true /\ pieces xs2 = pieces (doc_items (map NItem qs)) ++ rest).
      { destruct (piece_of q) as [|p l] eqn:D; [exists [], xs; cbn in P; rewrite D in P; repeat split; auto|].
        assert (l = []) by (destruct q; cbn in D; congruence). subst l.
        destruct (piece_first xs p (pieces (doc_items (map NItem qs)) ++ rest)) as (bs & y & xs' & -> & BB & Y & Q); [rewrite P; cbn; rewrite D; reflexivity|].
        exists (bs ++ [y]), xs'. rewrite <- app_assoc, forallb_app, blanks_plain by auto. repeat split; auto. cbn. rewrite andb_true_r.
        destruct q; cbn in *; try discriminate O1; destruct y; cbn in *; try reflexivity; try discriminate; congruence. }
      destruct H as (ys & xs2 & -> & Y1 & Y2). destruct (nodes_plain qs O2) as (N1' & N2' & N3').
      inversion FF as [|? ? FF1 FF2]; subst.
      destruct (IH O2 N1' N2' N3' FF2 _ Y2) as (zs & xs3 & -> & Z1 & Z2).
      exists (ys ++ zs), xs3. rewrite <- app_assoc, forallb_app, Y1, Z1. repeat split; auto. }
    destruct (F _ O _ _ Q) as (ys & xs2 & -> & A1 & A2). destruct (K _ CloseQuote PCloseQuote eq_refl _ A2) as (cs & z & xs3 & -> & CC & Z & Q2).
    assert (EY : y = OpenQuote false) by (destruct y; cbn in Y; try discriminate Y; congruence).
    assert (EZ : z = CloseQuote) by (destruct z; cbn in Z; try discriminate Z; congruence). subst y z.
    destruct (parts_plain bs (blanks_plain _ BB)) as (N1 & N2 & N3 & N4).
    exists (map PItem bs ++ [PQuoted (ys ++ cs)]), xs3. destruct (quoted_snoc (map PItem bs) (ys ++ cs)) as [-> ->].
    rewrite N1, N2, existsb_app, N4, forallb_app, A1, (blanks_plain _ CC). split; [rewrite <- !app_assoc; cbn; rewrite <- !app_assoc; reflexivity|]. split; [reflexivity|]. split; [|split; auto].
    apply Forall_app. split; [auto|]. constructor; [exact I|constructor]. }
  assert (HE : forall ns, Forall fill_node ns -> fill_part (SpecFmt.PEval ns)).
  { intros ns IH O F xs rest P. change (nd_all ns) in F. rewrite nd_all_forall in F. change (doc_ok ns = true) in O.
    change (pieces xs = pieces ([@OpenEval LI] ++ doc_items ns ++ [CloseEval]) ++ rest) in P.
    rewrite !pieces_app, <- !app_assoc in P. destruct (K _ OpenEval POpenEval eq_refl _ P) as (bs & y & xs' & -> & BB & Y & Q).
    destruct (fill_nodes ns IH O F _ _ Q) as (ns' & xs2 & -> & A1 & A2 & A4).
    destruct (K _ CloseEval PCloseEval eq_refl _ A4) as (cs & z & xs3 & -> & CC & Z & Q2).
    assert (EY : y = OpenEval) by (destruct y; cbn in Y; try discriminate Y; congruence).
    assert (EZ : z = CloseEval) by (destruct z; cbn in Z; try discriminate Z; congruence). subst y z.
    destruct (parts_plain bs (blanks_plain _ BB)) as (N1 & N2 & N3 & N4). destruct (nodes_plain cs (blanks_plain _ CC)) as (M1 & M2 & M3).
    exists (map PItem bs ++ [SpecFmt.PEval (ns' ++ map NItem cs)]), xs3. destruct (eval_snoc (map PItem bs) (ns' ++ map NItem cs)) as [-> ->].
    rewrite N1, N2, existsb_app, N4. unfold doc_items, doc_ok in *. rewrite flat_map_app, M1, forallb_app, A1, M2. split; [rewrite <- !app_assoc; cbn; rewrite <- !app_assoc; reflexivity|]. split; [reflexivity|]. split; [|split; auto].
    apply Forall_app. split; [auto|]. constructor; [|constructor]. change (nd_all (ns' ++ map NItem cs)). apply nd_all_forall. apply Forall_app; auto. }
  split; [apply (node_all fill_node fill_part)|apply (part_all fill_node fill_part)]; auto.
Qed.
Theorem documents_exact (xs : list (item LI)) : documents xs -> exists ns, doc_ok ns = true /\ Forall node_flags ns /\ xs = doc_items ns.
Proof.
  intros (ns & O & F & P). rewrite <- (app_nil_r (pieces (doc_items ns))) in P.
  destruct (fill_nodes ns ltac:(apply Forall_forall; intros n _; apply (proj1 fill_all)) O F xs [] P) as (ns' & xs' & -> & A1 & A2 & A3).
  assert (BB : Forall blank xs').
  { clear -A3. induction xs' as [|x xs IH]; constructor; cbn in A3; apply app_eq_nil in A3 as [? ?]; auto. }
  destruct (nodes_plain xs' (blanks_plain _ BB)) as (N1 & N2 & N3). exists (ns' ++ map NItem xs'). unfold doc_ok, doc_items in *.
  rewrite forallb_app, A1, N2, flat_map_app, N1. repeat split; auto. apply Forall_app; auto.
Qed.

(** ** Joining two texts *)
Context (ops : lang_ops LI) (cfg : config).
Definition shown (xs : list (item LI)) : str * bool := outcome (format_items ops cfg string_writer xs (formatter_new [])).
Lemma shown_erase xs : shown (map erase xs) = shown xs.
Proof. unfold shown. rewrite format_erase. reflexivity. Qed.
Lemma pieces_erase xs : pieces (map erase xs) = @pieces LI xs.
Proof. induction xs as [|x xs IH]; [reflexivity|]. change (piece_of (erase x) ++ pieces (map erase xs) = piece_of x ++ pieces xs). rewrite IH. destruct x; reflexivity. Qed.
Lemma layout_join ind s1 s2 l2 l1 : s1 <> [] -> s2 <> [] -> forall first lvl gap,
  layout_from ind first lvl gap (l1 ++ AText s1 :: AText s2 :: l2) = layout_from ind first lvl gap (l1 ++ AText (s1 ++ s2) :: l2).
Proof.
  intros N1 N2. induction l1 as [|a l1 IH]; intros first lvl gap; cbn [app layout_from].
  - destruct s1 as [|c1 s1]; [congruence|]. destruct s2 as [|c2 s2]; [congruence|]. cbn [a_text app]. cbn [layout_from a_text net].
    rewrite Z.add_0_r. change (separator ind false (lvl + net gap) []) with (@nil sym). cbn [app].
    change (map Ch (c1 :: s1 ++ c2 :: s2)) with (map Ch ((c1 :: s1) ++ (c2 :: s2))). rewrite map_app, <- app_assoc. reflexivity.
  - destruct (a_text a); rewrite IH; reflexivity.
Qed.
Lemma join_shown a s1 s2 b : documents a -> s1 <> [] -> s2 <> [] ->
  shown (a ++ Literal (Static s1) :: Literal (Static s2) :: b) = shown (a ++ Literal (Static (s1 ++ s2)) :: b).
Proof.
  intros D N1 N2. apply documents_exact in D as (ns & O & _ & ->). unfold shown.
  pose proof (format_items_elab ops cfg string_writer (doc_items ns ++ Literal (Static s1) :: Literal (Static s2) :: b) (formatter_new [])) as F1.
  pose proof (format_items_elab ops cfg string_writer (doc_items ns ++ Literal (Static (s1 ++ s2)) :: b) (formatter_new [])) as F2.
  rewrite elab_doc in F1, F2 by auto. rewrite !E_plain in F1 by reflexivity. rewrite E_plain in F2 by reflexivity. cbn [in_quote atoms_of content] in F1, F2.
  destruct (RenderFacts.E ops cfg false [mk_frame false false false] b) as [[l rest] ok]. cbn [pre] in F1, F2. rewrite F1, F2. unfold outcome. cbn [fst snd].
  destruct (run_string_new cfg (doc_atoms ops cfg ns ++ [AText s1] ++ [AText s2] ++ l) []) as (st1 & X1 & Y1).
  destruct (run_string_new cfg (doc_atoms ops cfg ns ++ [AText (s1 ++ s2)] ++ l) []) as (st2 & X2 & Y2).
  unfold str in *. rewrite X1, X2. cbn [fst snd]. rewrite Y1, Y2. unfold layout. cbn [app]. rewrite layout_join by auto. reflexivity.
Qed.
Lemma join_extended a s1 s2 b : documents a -> s1 <> [] -> s2 <> [] ->
  shown (items (extend (a ++ Literal (Static s1) :: Literal (Static s2) :: b) new)) = shown (items (extend (a ++ Literal (Static (s1 ++ s2)) :: b) new)).
Proof.
  intros D N1 N2.
  assert (K : forall L, L <> [] -> Forall (fun x => exists s, x = Literal s) L ->
    map erase (items (extend (a ++ L ++ b) new)) = map erase (items (extend a new)) ++ L ++ map erase (items (@from_iter LI b))).
  { intros L NL FL. rewrite !extend_app.
    assert (RL : forall t, ritems (extend L t) = rev L ++ ritems t).
    { clear -FL. induction FL as [|x L [s ->] _ IH]; intros t; [reflexivity|]. cbn [extend fold_left]. change (fold_left _ L ?q) with (extend L q). rewrite IH. cbn. rewrite <- app_assoc. reflexivity. }
    rewrite extend_closed.
    - unfold items, grafted. cbn [ritems]. rewrite !map_rev, graft_erase, RL, map_app, !rev_app_distr, <- !app_assoc, <- !map_rev, rev_involutive.
      f_equal. f_equal. clear -FL. induction FL as [|x L [s ->] _ IH]; cbn; congruence.
    - apply extend_wf, extend_wf, new_wf.
    - intros pre x Q. unfold items in Q. rewrite RL, rev_app_distr, rev_involutive in Q.
      destruct (exists_last NL) as (L' & y & ->). rewrite app_assoc in Q. apply app_inj_tail in Q as [_ <-].
      apply Forall_app in FL as [_ FL]. inversion FL as [|? ? [s ->] _]; subst. reflexivity. }
  rewrite <- shown_erase, <- (shown_erase (items (extend (a ++ Literal (Static (s1 ++ s2)) :: b) new))).
  change (Literal (Static s1) :: Literal (Static s2) :: b) with ([Literal (Static s1); @Literal LI (Static s2)] ++ b).
  change (Literal (Static (s1 ++ s2)) :: b) with ([@Literal LI (Static (s1 ++ s2))] ++ b).
  rewrite !K by (try discriminate; repeat constructor; eauto). cbn [app]. apply join_shown; auto.
  eapply documents_pieces; [|exact D]. rewrite pieces_erase, extend_pieces. reflexivity.
Qed.

(** ** Joining all texts *)
Definition apart (ks : list (chunk LI)) : list (item LI) := flat_map (fun k => match k with KText s => literal s | KItems its => its end) ks.
Lemma join_apart ks : Forall doc_chunk ks -> forall a b c, documents a ->
  shown (items (extend (a ++ literal b ++ apart ks ++ c) new)) = shown (items (extend (a ++ join_texts b ks ++ c) new)).
Proof.
  induction 1 as [|k ks D _ IH]; intros a b c DA; [reflexivity|].
  destruct k as [s|its]; cbn [apart flat_map join_texts].
  - change (flat_map _ ks) with (apart ks). rewrite <- IH by auto. destruct s as [|c1 s]; [cbn [literal app]; rewrite app_nil_r; reflexivity|].
    destruct b as [|c2 b]; [reflexivity|]. change (literal (c2 :: b)) with [@Literal LI (Static (c2 :: b))]. change (literal (c1 :: s)) with [@Literal LI (Static (c1 :: s))].
    change (literal ((c2 :: b) ++ c1 :: s)) with [@Literal LI (Static ((c2 :: b) ++ c1 :: s))]. rewrite <- !app_assoc.
    apply join_extended; auto; discriminate.
  - change (flat_map _ ks) with (apart ks). specialize (IH (a ++ literal b ++ its) [] c). cbn [literal app] in IH. rewrite <- !app_assoc in IH. rewrite <- !app_assoc. apply IH.
    apply documents_app; auto. apply documents_app; [apply documents_literal|exact D].
Qed.
Lemma says_apart (ks : list cchunk) e cs e' : says ks e cs e' -> supplies (one_by_one ks) e (apart cs) e'.
Proof.
  induction 1; cbn [one_by_one apart flat_map]; try (change (flat_map _ ks) with (one_by_one ks)).
  - apply supplies_nil.
  - eapply supplies_app; [apply supplies_text|exact IHsays].
  - eapply supplies_app; eauto.
  - intros t. rewrite execs_app. cbn [execs fold_state exec fst snd]. apply IHsays.
Qed.
Lemma requests_supply h : requests h -> forall e : E, exists its, supplies (map act_stmt h) e its e /\ pieces its = @nil (piece LI).
Proof.
  induction 1 as [|a h N _ IH]; intros e; [exists []; split; [apply supplies_nil|reflexivity]|].
  destruct (IH e) as (its & S & P).
  assert (A : exists x : item LI, piece_of x = [] /\ supplies [@act_stmt LI E a] e [x] e).
  { destruct a; [exfalso; eapply N; reflexivity|exists Space|exists Push|exists Line|exists (Indentation 1)|exists (Indentation (-1))]; split; try reflexivity; intros t; reflexivity. }
  destruct A as (x & X1 & X2). exists (x :: its). split.
  - change (map act_stmt (a :: h)) with ([@act_stmt LI E a] ++ map act_stmt h). change (x :: its) with ([x] ++ its). eapply supplies_app; eauto.
  - change (pieces (x :: its)) with (piece_of x ++ pieces its). rewrite X1. exact P.
Qed.
Notation EV := (every_value (@document_value LI E) document_scope constant_value).
Definition leaf_docs (l : leaf LI E) : Prop := match l with LText _ => True | LOther x => EV x end.
Lemma tokens_docs : (forall x : quoted, EV x -> Forall leaf_docs (map snd (tokens_of x))) /\ (forall x : string_item LI E, True).
Proof.
  apply quoted_string_ind; auto; intros; try (constructor; [first [exact I|assumption]|constructor]).
  change (@dv_all LI E qs) in H0. rewrite dv_all_forall in H0. cbn [tokens_of map]. constructor; [exact I|]. rewrite map_app. apply Forall_app. split; [|constructor; [exact I|constructor]].
  clear -H H0. induction H as [|x qs H _ IH]; [constructor|]. inversion H0; subst. cbn [flat_map]. rewrite map_app. apply Forall_app. auto.
Qed.
Lemma all_leaf_docs qs : Forall EV qs -> Forall leaf_docs (map snd (all_tokens qs)).
Proof.
  induction 1 as [|x qs H _ IH]; [constructor|]. rewrite all_cons, map_app. apply Forall_app. split; [apply (proj1 tokens_docs); auto|exact IH].
Qed.
Lemma leaves_say (ls : list (leaf LI E)) ks : Forall2 leaf_code ls ks -> Forall leaf_docs ls -> forall seps, length seps = length ks ->
  Forall (fun sep => match sep with Some h => requests h | None => True end) seps ->
  forall e, exists cs e', says (interleave seps ks) e cs e' /\ Forall doc_chunk cs.
Proof.
  induction 1 as [|l k ls ks L _ IH]; intros D seps LN R e.
  - destruct seps; [|discriminate]. exists [], e. split; constructor.
  - destruct seps as [|sep seps]; [discriminate|]. injection LN as LN. inversion D; subst. inversion R; subst. rewrite interleave_cons.
    assert (S1 : exists cs, says (match sep with Some h => [CCode (map (@act_stmt LI E) h)] | None => @nil cchunk end) e cs e /\ Forall doc_chunk cs).
    { destruct sep as [h|]; [|exists []; split; constructor]. destruct (requests_supply h H3 e) as (its & S & P). exists [KItems its]. split.
      - econstructor; [exact S|constructor].
      - constructor; [|constructor]. apply documents_blank, P. }
    destruct S1 as (c1 & S1 & D1).
    assert (S2 : exists cs e1, says [k] e cs e1 /\ Forall doc_chunk cs).
    { destruct l as [s|x]; cbn in L.
      - subst k. exists [KText s], e. split; repeat constructor.
      - assert (G : (exists r code, quote_code [x] = Some (r, code) /\ k = CCode code) -> exists cs e1, says [k] e cs e1 /\ Forall doc_chunk cs).
        { intros (r & code & Q & ->). exists [KItems (fst (quote_mean [x] e))], (snd (quote_mean [x] e)). split.
          - econstructor; [|constructor]. exact (quote_supplies _ _ _ Q e).
          - constructor; [|constructor]. apply block_docs; [constructor; [apply (proj1 all_docs)|constructor]|constructor; [assumption|constructor]]. }
        destruct x; try exact (G L). subst k. exists [], (f e). split; repeat constructor. }
    destruct S2 as (c2 & e2 & S2 & D2). destruct (IH H2 seps LN H4 e2) as (c3 & e3 & S3 & D3).
    exists (c1 ++ c2 ++ c3), e3. split.
    + cbn [interleave app]. rewrite app_nil_r || idtac. rewrite <- app_assoc. eapply says_app; eauto. eapply says_app; eauto.
    + apply Forall_app. split; auto. apply Forall_app; auto.
Qed.
Theorem merged (qs : list quoted) seps ks closing : Forall EV qs -> Forall2 leaf_code (map snd (all_tokens qs)) ks -> length seps = length ks ->
  Forall (fun sep => match sep with Some h => requests h | None => True end) seps -> forall cs0, documents (items (build cs0)) -> forall e,
  let merged := execs (coalesce [] (interleave seps ks) ++ repeat SUnindent closing) (e, build cs0) in
  let apart := execs (one_by_one (interleave seps ks) ++ repeat SUnindent closing) (e, build cs0) in
  fst merged = fst apart /\ shown (items (snd merged)) = shown (items (snd apart)).
Proof.
  intros D L LN R cs0 D0 e m a. subst m a. destruct (leaves_say _ _ L (all_leaf_docs _ D) seps LN R e) as (cs & e' & S & DC).
  assert (C : exists c, supplies (repeat (@SUnindent LI E) closing) e' c e').
  { assert (RR : requests (repeat TUnindent closing)) by (apply Forall_forall; intros a Ha; apply repeat_spec in Ha as ->; discriminate).
    destruct (requests_supply _ RR e') as (c & Q & _). exists c. replace (repeat SUnindent closing) with (map (@act_stmt LI E) (repeat TUnindent closing)); [exact Q|].
    clear. induction closing; cbn; congruence. }
  destruct C as (c & C). pose proof (supplies_app _ _ _ _ _ _ _ (says_supplies _ _ _ _ S []) C (build cs0)) as X1. pose proof (supplies_app _ _ _ _ _ _ _ (says_apart _ _ _ _ S) C (build cs0)) as X2.
  rewrite X1, X2. cbn [fst snd]. split; [reflexivity|]. symmetry. pose proof (join_apart cs DC (items (build cs0)) [] c D0) as J.
  rewrite !(extend_app (items (build cs0))) in J. change (extend (items (build cs0)) new) with (from_iter (items (build cs0))) in J.
  rewrite rebuild_tokens in J by (apply build_wf || apply build_canon). exact J.
Qed.
End Merge.
