(** * The formatter refines the declarative layout. *)
From Verif Require Import Tokens SpecTokens Fmt SpecFmt FmtFacts.

(** ** Fuel *)

Section Fuel.
Context {LI : Type} (ops : lang_ops LI) (cfg : config).
Notation fc := (format_cursor ops cfg).

Lemma format_fuel' f1 : forall W wr eoc stack cursor (st : fstate W),
  length cursor < f1 ->
  (forall f2, length cursor < f2 ->
     fc f2 W wr eoc stack cursor st = fc f1 W wr eoc stack cursor st) /\
  length (snd (fst (fc f1 W wr eoc stack cursor st))) <= length cursor.
Proof.
  induction f1 as [|f1 IH]; intros W wr eoc stack cursor st Hl; [lia|].
  assert (N : forall stack rest r (dead : list (item LI)),
    length rest <= length (tl cursor) -> length dead <= length (tl cursor) ->
    cursor <> [] ->
    (forall f2, length cursor < S f2 ->
      (let '(st, ok) := r in if ok : bool then fc f2 W wr eoc stack rest st else (st, dead, false)) =
      (let '(st, ok) := r in if ok : bool then fc f1 W wr eoc stack rest st else (st, dead, false))) /\
    length (snd (fst (let '(st, ok) := r in if ok : bool then fc f1 W wr eoc stack rest st
       else (st, dead, false)))) <= length cursor).
  { intros stk rest [st' [|]] dead H1 H2 H3; destruct cursor as [|it cur]; try congruence;
      cbn [tl length] in *.
    - destruct (IH W wr eoc stk rest st') as [A B]; [lia|]. split; [|lia].
      intros f2 H; apply A; lia.
    - cbn. split; auto. }
  destruct cursor as [|it rest].
  { split; [intros [|f2] H; [cbn in H; lia|]; reflexivity|cbn; lia]. }
  cbn [tl] in N.
  destruct stack as [|head below].
  { split; [intros [|f2] H; [cbn in H; lia|]; reflexivity|cbn; lia]. }
  assert (NN : forall stk r rst, length rst <= length rest ->
    (forall f2, length (it :: rest) < S f2 ->
      (let '(st, ok) := r in if ok : bool then fc f2 W wr eoc stk rst st else (st, rst, false)) =
      (let '(st, ok) := r in if ok : bool then fc f1 W wr eoc stk rst st else (st, rst, false))) /\
    length (snd (fst (let '(st, ok) := r in if ok : bool then fc f1 W wr eoc stk rst st
       else (st, rst, false)))) <= length (it :: rest)).
  { intros stk r rst Hr; apply N; auto; discriminate. }
  clear N.
  assert (T : forall (r : fstate W * list (item LI) * bool),
     length (snd (fst r)) <= length rest ->
     (forall f2, length (it :: rest) < S f2 -> r = r) /\
     length (snd (fst r)) <= length (it :: rest)) by (intros; cbn; split; auto).
  assert (PF : forall F : nat -> fstate W * list (item LI) * bool,
     (forall f2, length (it :: rest) < S f2 -> F f2 = F f1) /\
     length (snd (fst (F f1))) <= length (it :: rest) ->
     (forall f2, fc (S f2) W wr eoc (head :: below) (it :: rest) st = F f2) ->
     (forall f2, length (it :: rest) < f2 ->
       fc f2 W wr eoc (head :: below) (it :: rest) st =
       fc (S f1) W wr eoc (head :: below) (it :: rest) st) /\
     length (snd (fst (fc (S f1) W wr eoc (head :: below) (it :: rest) st))) <=
       length (it :: rest)).
  { intros F [F1 F2] E. split; [|rewrite E; auto].
    intros [|f2] H; [cbn in H; lia|]. rewrite !E. apply F1. lia. }
  eapply PF; [|intros f2; cbn [format_cursor]; reflexivity]. cbv beta.
  destruct it as [s|p l|p l| | | |n|e| | |].
  - apply NN; lia.
  - apply NN; lia.
  - apply (NN _ (st, true)); lia.
  - apply (NN _ (f_push st, true)); lia.
  - apply (NN _ (f_do_line st, true)); lia.
  - apply (NN _ (f_space st, true)); lia.
  - destruct (Z.eqb n 0).
    + apply (NN _ (st, true)); lia.
    + apply (NN _ (f_indentation n st, true)); lia.
  - destruct (negb (in_quote head)); [apply NN; lia|].
    destruct (negb e); [|apply T; auto].
    destruct (write_all_strs string_writer cfg (l_open_quote ops false) (formatter_new []))
        as [out [|]]; [|apply T; auto].
    cbn [length] in Hl.
    destruct (IH str string_writer true [mk_frame false false false] rest out) as [A B]; [lia|].
    destruct (fc f1 str string_writer true [mk_frame false false false] rest out)
      as [[out' rest'] ok'] eqn:E1. cbn [fst snd] in B.
    assert (G : forall stk r, 
      (forall f2, length (OpenQuote e :: rest) < S f2 ->
        (let '(st, ok) := r in if ok : bool then fc f2 W wr eoc stk rest' st else (st, rest', false)) =
        (let '(st, ok) := r in if ok : bool then fc f1 W wr eoc stk rest' st else (st, rest', false))) /\
      length (snd (fst (let '(st, ok) := r in if ok : bool then fc f1 W wr eoc stk rest' st
       else (st, rest', false)))) <= length (OpenQuote e :: rest))
      by (intros; apply NN; lia).
    split.
    + intros f2 H. cbn [length] in H. rewrite (A f2) by lia. destruct ok'; auto.
      destruct (write_all_strs string_writer cfg (l_close_quote ops false) out')
        as [out'' [|]]; auto. apply G; cbn; auto.
    + destruct ok'; [|cbn; lia].
      destruct (write_all_strs string_writer cfg (l_close_quote ops false) out')
        as [out'' [|]]; [|cbn; lia]. apply G.
  - destruct eoc; [apply T; auto|]. destruct (in_quote head); [|apply T; auto].
    apply NN; lia.
  - destruct (in_quote head); [|apply T; auto].
    destruct rest as [|[s|? ?|? ?| | | |?|?| | |] [|[?|? ?|? ?| | | |?|?| | |] rest']];
      apply NN; cbn; lia.
  - destruct (end_on_eval head); [|apply T; auto]. apply NN; lia.
Qed.

(** With more fuel than items, the amount of fuel is irrelevant. *)
Lemma format_fuel f1 f2 W wr eoc stack cursor (st : fstate W) :
  length cursor < f1 -> length cursor < f2 ->
  fc f1 W wr eoc stack cursor st = fc f2 W wr eoc stack cursor st.
Proof. intros H1 H2. symmetry. apply (format_fuel' f1); auto. Qed.

Lemma format_rest f W wr eoc stack cursor (st : fstate W) :
  length cursor < f ->
  length (snd (fst (fc f W wr eoc stack cursor st))) <= length cursor.
Proof. intros H. apply (format_fuel' f); auto. Qed.

End Fuel.

(** ** Symbolic writer *)

Definition sym_writer : writer (list sym) := {|
  w_str := fun s w => (w ++ map Ch s, true);
  w_line := fun _ w => (w ++ [NL], true);
  w_trailing := fun _ w => (w ++ [NL], true)
|}.

Definition flat_event (e : event) : list sym :=
  match e with EStr s => map Ch s | _ => [NL] end.
Definition flat (tr : list event) : list sym := flat_map flat_event tr.

Lemma text_app nl a b : text nl (a ++ b) = text nl a ++ text nl b.
Proof. apply flat_map_app. Qed.
Lemma text_chars nl s : text nl (map Ch s) = s.
Proof. induction s as [|c s IH]; cbn; auto. unfold text in IH. rewrite IH; auto. Qed.

Lemma replay_sym cfg tr : forall w, replay sym_writer cfg tr w = (w ++ flat tr, true).
Proof.
  induction tr as [|e tr IH]; intros w; cbn [replay flat flat_map].
  - rewrite app_nil_r; auto.
  - destruct e; cbn [do_event sym_writer w_str w_line w_trailing flat_event];
      rewrite IH, <- app_assoc; auto.
Qed.
Lemma replay_string cfg tr : forall w,
  replay string_writer cfg tr w = (w ++ text (c_newline cfg) (flat tr), true).
Proof.
  induction tr as [|e tr IH]; intros w; cbn [replay flat flat_map].
  - cbn. rewrite app_nil_r; auto.
  - rewrite text_app.
    destruct e; cbn [do_event string_writer w_str w_line w_trailing flat_event];
      rewrite IH, <- app_assoc, ?text_chars; auto.
    all: cbn [text flat_map sym_text]; rewrite app_nil_r; auto.
Qed.

Lemma put_put {A B C} (st : fstate A) (b : B) (c : C) : put (put st b) c = put st c.
Proof. reflexivity. Qed.
Lemma put_self {A} (st : fstate A) : put st (f_write st) = st.
Proof. destruct st; reflexivity. Qed.

(** Knowing a symbolic run gives the string run. *)
Lemma sym_string {A} cfg ft fs f (st : fstate A) w0 w :
  sim_fun sym_writer cfg ft fs -> sim_fun string_writer cfg ft f ->
  exists o, f_write (fst (fs (put st w0))) = w0 ++ o /\
    f (put st w) = (put (fst (fs (put st w0))) (w ++ text (c_newline cfg) o),
                    snd (fs (put st w0))).
Proof.
  intros S1 S2. specialize (S1 (put st []) w0) as [tr1 [E1 H1]].
  specialize (S2 (put st []) w) as [tr2 [E2 H2]].
  rewrite !put_put in *. rewrite E1 in E2. apply app_inv_head in E2. subst tr2.
  rewrite replay_sym in H1. rewrite replay_string in H2.
  exists (flat tr1). rewrite H1. cbn [fst snd f_write put]. split; auto.
Qed.

(** ** Atoms *)

Section RunAtoms.
Context {W : Type} (wr : writer W) (cfg : config).

Definition do_atom (a : atom) (st : fstate W) : fstate W * bool :=
  match a with
  | AText s => write_str wr cfg s st
  | ASpace => (f_space st, true)
  | APush => (f_push st, true)
  | ALine => (f_do_line st, true)
  | AIndent n => if Z.eqb n 0 then (st, true) else (f_indentation n st, true)
  end.

Fixpoint run_atoms (l : list atom) (st : fstate W) : fstate W * bool :=
  match l with
  | [] => (st, true)
  | a :: l' => and_then (do_atom a st) (run_atoms l')
  end.

Lemma and_then_assoc r (f g : fstate W -> fstate W * bool) :
  and_then (and_then r f) g = and_then r (fun st => and_then (f st) g).
Proof. destruct r as [st [|]]; auto. Qed.

Lemma run_atoms_app a b st :
  run_atoms (a ++ b) st = and_then (run_atoms a st) (run_atoms b).
Proof.
  revert st; induction a as [|x a IH]; intros st; cbn [app run_atoms]; auto.
  rewrite and_then_assoc. destruct (do_atom x st) as [st' [|]]; cbn; auto.
Qed.

Lemma write_all_atoms ss : forall st,
  write_all_strs wr cfg ss st = run_atoms (texts ss) st.
Proof.
  induction ss as [|s ss IH]; intros st; cbn [write_all_strs texts map run_atoms do_atom]; auto.
  destruct (write_str wr cfg s st) as [st' [|]]; cbn [and_then]; auto.
Qed.

Lemma do_atom_sim a :
  sim_fun wr cfg (fun st => match a with
   | AText s => write_str trace_writer cfg s st
   | ASpace => (f_space st, true)
   | APush => (f_push st, true)
   | ALine => (f_do_line st, true)
   | AIndent n => if Z.eqb n 0 then (st, true) else (f_indentation n st, true)
   end) (do_atom a).
Proof.
  unfold do_atom. destruct a as [s| | | |n].
  - apply write_str_sim.
  - apply space_sim.
  - apply push_sim.
  - apply line_sim.
  - destruct (Z.eqb n 0); [apply ret_sim|apply indentation_sim].
Qed.
End RunAtoms.

Lemma run_atoms_sim {W} (wr : writer W) cfg l :
  sim_fun wr cfg (run_atoms trace_writer cfg l) (run_atoms wr cfg l).
Proof.
  induction l as [|a l IH]; cbn [run_atoms]; [apply ret_sim|].
  intros stt w. apply and_then_sim; auto. apply (do_atom_sim wr cfg a).
Qed.

(** ** Layout *)

Section Layout.
Context (cfg : config).
Notation ind := (c_indentation cfg).

Lemma write_lines_sym n : forall st,
  write_lines sym_writer cfg n st = (put st (f_write st ++ repeat NL n), true).
Proof.
  induction n as [|n IH]; intros st; cbn [write_lines repeat].
  - rewrite app_nil_r, put_self; auto.
  - unfold on_write; cbn. rewrite IH. cbn. rewrite <- app_assoc; auto.
Qed.

Lemma map_repeat {A B} (f : A -> B) x n : map f (repeat x n) = repeat (f x) n.
Proof. induction n; cbn; congruence. Qed.

Lemma write_padding_sym chunk c : chunk <> 0 -> forall fuel n st, n <= fuel ->
  write_padding sym_writer fuel chunk c n st =
  (put st (f_write st ++ repeat (Ch c) n), true).
Proof.
  intros Hc fuel; induction fuel as [|f IH]; intros n st Hn.
  - assert (n = 0) by lia; subst. cbn. rewrite app_nil_r, put_self; auto.
  - cbn [write_padding]. destruct n as [|n]; [cbn; rewrite app_nil_r, put_self; auto|].
    set (len := Nat.min (S n) chunk). unfold on_write. cbn [sym_writer w_str and_then].
    rewrite IH by lia. rewrite map_repeat. unfold with_write, put. cbn [f_write f_line f_spaces f_indent].
    rewrite <- app_assoc, <- repeat_app.
    replace (len + (S n - len)) with (S n) by lia. auto.
Qed.

Lemma flush_sym st :
  flush_whitespace sym_writer cfg st =
  (mk_fstate (f_write st ++
     match into_indent (f_line st) with
     | Some lines => repeat NL lines ++ pad ind (f_indent st) ++ blanks (f_spaces st)
     | None => blanks (f_spaces st)
     end) WNone 0 (f_indent st), true).
Proof.
  unfold flush_whitespace, pad, blanks.
  destruct (into_indent (f_line st)) as [lines|].
  - rewrite write_lines_sym. cbn [and_then put f_indent f_write f_line f_spaces].
    destruct ind as [w|].
    + rewrite write_padding_sym by (auto; discriminate).
      cbn [put f_write f_line f_spaces f_indent].
      rewrite <- app_assoc, <- repeat_app.
      rewrite (Nat.add_comm (f_spaces st)). reflexivity.
    + rewrite write_padding_sym by (auto; discriminate).
      cbn [and_then]. rewrite write_padding_sym by (auto; discriminate).
      cbn [put f_write f_line f_spaces f_indent].
      rewrite <- !app_assoc. auto.
  - rewrite write_padding_sym by (auto; discriminate). reflexivity.
Qed.

(** The state of the formatter in terms of the gap since the last text. *)
Definition layout_inv {W} (first : bool) (lvl : Z) (gap : list atom) (st : fstate W) : Prop :=
  f_line st = (if first then WInitial else if existsb a_line gap then WLine
               else if existsb a_break gap then WPush else WNone) /\
  f_spaces st = (if first then count_spaces gap
     else if existsb a_line gap then count_spaces (after_last a_line gap)
     else if existsb a_break gap then count_spaces (after_last a_break gap)
     else count_spaces gap) /\
  f_indent st = (lvl + net gap)%Z.

Lemma after_last_snoc {A} (p : A -> bool) l x :
  after_last p (l ++ [x]) = if p x then [] else after_last p l ++ [x].
Proof.
  induction l as [|y l IH]; cbn.
  - destruct (p x); auto.
  - rewrite existsb_app. cbn [existsb]. rewrite orb_false_r.
    destruct (p x) eqn:P.
    + rewrite orb_true_r. auto.
    + rewrite orb_false_r. destruct (existsb p l); auto. destruct (p y); auto.
Qed.
Lemma existsb_snoc {A} (p : A -> bool) l x : existsb p (l ++ [x]) = existsb p l || p x.
Proof. rewrite existsb_app; cbn. rewrite orb_false_r; auto. Qed.
Lemma count_spaces_snoc l x :
  count_spaces (l ++ [x]) = count_spaces l + (if a_space x then 1 else 0).
Proof. unfold count_spaces. rewrite filter_app, app_length; cbn. destruct (a_space x); auto. Qed.
Lemma net_snoc l x : net (l ++ [x]) = (net l + a_indent x)%Z.
Proof. induction l as [|y l IH]; cbn; [lia|rewrite IH; lia]. Qed.
Lemma line_break_gap l : existsb a_line l = true -> existsb a_break l = true.
Proof. rewrite !existsb_exists. intros [x [H1 H2]]. exists x; split; auto. destruct x; auto; discriminate. Qed.

Lemma do_invisible {W} (wr : writer W) a first lvl gap st :
  a_text a = [] -> layout_inv first lvl gap st ->
  exists st', do_atom wr cfg a st = (st', true) /\ f_write st' = f_write st /\
    layout_inv first lvl (gap ++ [a]) st'.
Proof.
  intros Ha [I1 [I2 I3]].
  assert (E : forall st', f_write st' = f_write st ->
     f_line st' = f_line st -> f_spaces st' = f_spaces st + (if a_space a then 1 else 0) ->
     f_indent st' = f_indent st -> a_break a = false -> a_line a = false -> a_indent a = 0%Z ->
     layout_inv first lvl (gap ++ [a]) st').
  { intros st' H1 H2 H3 H4 H5 H6 H7. unfold layout_inv.
    rewrite H2, H3, H4, !existsb_snoc, H5, H6, !orb_false_r, I1, I2, I3, net_snoc, H7,
      !after_last_snoc, H5, H6, !count_spaces_snoc.
    repeat split; [|lia]. destruct first, (existsb a_line gap), (existsb a_break gap); auto. }
  destruct a as [s| | | |n]; cbn [do_atom].
  - cbn in Ha; subst s. exists st. repeat split; auto; apply E; auto.
  - exists (f_space st). repeat split; auto; try (apply E; cbn; auto; lia).
  - exists (f_push st). split; auto. unfold f_push. split; [destruct (f_line st); auto|].
    unfold layout_inv. rewrite !existsb_snoc, !after_last_snoc, !count_spaces_snoc, net_snoc.
    cbn [a_line a_break a_space a_indent]. rewrite orb_false_r, orb_true_r, Z.add_0_r, !Nat.add_0_r.
    rewrite I1. clear E. revert I1 I2.
    destruct first; [|destruct (existsb a_line gap) eqn:L; [|destruct (existsb a_break gap)]].
    all: cbn; intros I1 I2; rewrite ?I1, ?I2, ?I3; repeat split;
      rewrite ?count_spaces_snoc; cbn; auto; lia.
  - exists (f_do_line st). split; auto. unfold f_do_line. split; [destruct (f_line st); auto|].
    unfold layout_inv. rewrite !existsb_snoc, !after_last_snoc, !count_spaces_snoc, net_snoc.
    cbn [a_line a_break a_space a_indent]. rewrite !orb_true_r, Z.add_0_r, !Nat.add_0_r.
    rewrite I1. clear E. revert I1 I2.
    destruct first; [|destruct (existsb a_line gap) eqn:L; [|destruct (existsb a_break gap)]].
    all: cbn; intros I1 I2; rewrite ?I1, ?I2, ?I3; repeat split;
      rewrite ?count_spaces_snoc; cbn; auto; lia.
  - destruct (Z.eqb_spec n 0) as [->|N].
    + exists st. repeat split; auto; apply E; auto.
    + exists (f_indentation n st). split; auto. unfold f_indentation, f_push.
      split; [destruct (f_line st); auto|].
      unfold layout_inv. rewrite !existsb_snoc, !after_last_snoc, !count_spaces_snoc, net_snoc.
      assert (B : a_break (AIndent n) = true) by (cbn; apply Z.eqb_neq in N; rewrite N; auto).
      rewrite B. cbn [a_line a_space a_indent]. rewrite orb_false_r, orb_true_r, !Nat.add_0_r.
      rewrite I1. clear E. revert I1 I2.
      destruct first; [|destruct (existsb a_line gap) eqn:L; [|destruct (existsb a_break gap)]];
        cbn; intros I1 I2; rewrite ?I1, ?I2, ?I3; repeat split;
        rewrite ?count_spaces_snoc; cbn; auto; lia.
Qed.

Lemma write_str_visible s first lvl gap st : s <> [] -> layout_inv first lvl gap st ->
  exists st', write_str sym_writer cfg s st = (st', true) /\
    f_write st' = f_write st ++ separator ind first (lvl + net gap) gap ++ map Ch s /\
    layout_inv false (lvl + net gap) [] st'.
Proof.
  intros Hs [I1 [I2 I3]]. unfold write_str. destruct s as [|c s]; [congruence|].
  rewrite flush_sym. cbn [and_then on_write sym_writer w_str f_write with_write].
  eexists; split; [reflexivity|]. cbn [f_write].
  split; [|split; [reflexivity|split; [reflexivity|]]; cbn; lia].
  rewrite <- app_assoc. do 2 f_equal. rewrite I1, I2, I3. unfold separator.
  destruct first; cbn [into_indent]; auto.
  destruct (existsb a_line gap); cbn [into_indent]; auto.
  destruct (existsb a_break gap); cbn [into_indent]; auto.
Qed.

(** State of the layout after a sequence of atoms. *)
Fixpoint after (first : bool) (lvl : Z) (gap l : list atom) : bool * Z * list atom :=
  match l with
  | [] => (first, lvl, gap)
  | a :: l' =>
      match a_text a with
      | [] => after first lvl (gap ++ [a]) l'
      | _ => after false (lvl + net gap)%Z [] l'
      end
  end.

Lemma layout_from_app l1 l2 : forall first lvl gap,
  layout_from ind first lvl gap (l1 ++ l2) =
  layout_from ind first lvl gap l1 ++
  (let '(f, v, g) := after first lvl gap l1 in layout_from ind f v g l2).
Proof.
  induction l1 as [|a l1 IH]; intros first lvl gap; cbn [app layout_from after]; auto.
  destruct (a_text a) as [|c s]; auto.
  cbv zeta. rewrite IH. rewrite <- !app_assoc. auto.
Qed.

Lemma run_layout l : forall first lvl gap st, layout_inv first lvl gap st ->
  exists st', run_atoms sym_writer cfg l st = (st', true) /\
    f_write st' = f_write st ++ layout_from ind first lvl gap l /\
    (let '(f, v, g) := after first lvl gap l in layout_inv f v g st').
Proof.
  induction l as [|a l IH]; intros first lvl gap st I; cbn [run_atoms layout_from after].
  - exists st. rewrite app_nil_r; auto.
  - destruct (a_text a) as [|c s] eqn:Ha.
    + destruct (do_invisible sym_writer a first lvl gap st Ha I) as [st1 [E1 [E2 I1]]].
      rewrite E1. cbn [and_then]. destruct (IH _ _ _ _ I1) as [st2 [E3 [E4 I2]]].
      exists st2. rewrite E4, E2; auto.
    + destruct a as [s'| | | |]; try discriminate. cbn in Ha; subst s'.
      destruct (write_str_visible (c :: s) first lvl gap st ltac:(discriminate) I)
        as [st1 [E1 [E2 I1]]].
      cbn [do_atom]. rewrite E1. cbn [and_then].
      destruct (IH _ _ _ _ I1) as [st2 [E3 [E4 I2]]].
      exists st2. split; auto. split; auto. rewrite E4, E2, <- !app_assoc; auto.
Qed.

Lemma new_inv {W} (w : W) : layout_inv true 0 [] (formatter_new w).
Proof. repeat split. Qed.

(** The same for strings. *)
Lemma run_layout_string {A} l w (st : fstate A) first lvl gap :
  layout_inv first lvl gap st ->
  exists st', run_atoms string_writer cfg l (put st w) = (st', true) /\
    f_write st' = w ++ text (c_newline cfg) (layout_from ind first lvl gap l) /\
    (let '(f, v, g) := after first lvl gap l in layout_inv f v g st').
Proof.
  intros I.
  destruct (run_layout l first lvl gap (put st []) I) as [st1 [E1 [E2 I1]]].
  destruct (sym_string cfg _ _ _ st [] w (run_atoms_sim sym_writer cfg l)
     (run_atoms_sim string_writer cfg l)) as [o [H1 H2]].
  rewrite E1 in H1, H2. cbn [fst snd app put f_write] in *. rewrite E2 in H1. subst o.
  exists (put st1 (w ++ text (c_newline cfg) (layout_from ind first lvl gap l))).
  rewrite H2. auto.
Qed.

End Layout.

(** ** Elaboration: the writer-independent part of the formatter's loop *)

Section Elab.
Context {LI : Type} (ops : lang_ops LI) (cfg : config).
Notation fc := (format_cursor ops cfg).
Notation ind := (c_indentation cfg).
Notation nl := (c_newline cfg).

Fixpoint elab (fuel : nat) (eoc : bool) (stack : list frame)
    (cursor : list (item LI)) : list atom * list (item LI) * bool :=
  match fuel with
  | O => ([], cursor, false)
  | S fuel =>
    match cursor with
    | [] => ([], [], true)
    | it :: rest =>
      match stack with
      | [] => ([], rest, true)
      | head :: below =>
        let next stack rest (l : list atom) :=
          let '(l2, r, ok) := elab fuel eoc stack rest in (l ++ l2, r, ok) in
        match it with
        | OpenQuote e =>
            if negb (in_quote head) then
              next (mk_frame true e (end_on_eval head) :: below) rest
                (texts (l_open_quote ops e))
            else if negb e then
              match elab fuel true [mk_frame false false false] rest with
              | (_, rest, false) => ([], rest, false)
              | (l, rest, true) =>
                  next stack rest (texts (l_write_quoted ops
                    (text nl (layout ind (texts (l_open_quote ops false) ++ l ++
                                          texts (l_close_quote ops false))))))
              end
            else ([], rest, false)
        | CloseQuote =>
            if eoc then ([], rest, true)
            else if in_quote head then
              next (mk_frame false false (end_on_eval head) :: below) rest
                (texts (l_close_quote ops (has_eval head)))
            else ([], rest, false)
        | OpenEval =>
            if in_quote head then
              match rest with
              | Literal s :: CloseEval :: rest' =>
                  next stack rest' (texts (l_string_eval_literal ops (content s)))
              | _ =>
                  next (mk_frame false false true :: stack) rest
                    (texts (l_start_string_eval ops))
              end
            else ([], rest, false)
        | CloseEval =>
            if end_on_eval head then next below rest (texts (l_end_string_eval ops))
            else ([], rest, false)
        | Literal s =>
            next stack rest
              (if in_quote head then texts (l_write_quoted ops (content s))
               else [AText (content s)])
        | it => next stack rest (atoms_of ops it)
        end
      end
    end
  end.

(** [r] is what running the atoms and then stopping with [(rest, ok)] gives. *)
Definition agrees {W} (wr : writer W) (e : list atom * list (item LI) * bool)
    (st : fstate W) (r : fstate W * list (item LI) * bool) : Prop :=
  let '(l, rest, ok) := e in
  match run_atoms wr cfg l st with
  | (st', true) => r = (st', rest, ok)
  | (st', false) => fst (fst r) = st' /\ snd r = false
  end.

Lemma agrees_next {W} (wr : writer W) l e st r (k : fstate W -> _) (dead : list (item LI)) :
  r = run_atoms wr cfg l st ->
  (forall st, agrees wr e st (k st)) ->
  agrees wr (let '(l2, r, ok) := e in (l ++ l2, r, ok)) st
    (let '(st, ok) := r in if ok : bool then k st else (st, dead, false)).
Proof.
  intros -> K. destruct e as [[l2 rest] ok]. cbn [agrees].
  rewrite run_atoms_app. destruct (run_atoms wr cfg l st) as [st' [|]]; cbn [and_then].
  - exact (K st').
  - auto.
Qed.

Lemma agrees_stop {W} (wr : writer W) st rest ok :
  agrees wr ([], rest, ok) st (st, rest, ok).
Proof. cbn. reflexivity. Qed.

Lemma run_string_new l (w : str) :
  exists st', run_atoms string_writer cfg l (formatter_new w) = (st', true) /\
    f_write st' = w ++ text nl (layout ind l).
Proof.
  destruct (run_layout_string cfg l w (formatter_new w) true 0%Z [] (new_inv w))
    as [st' [E1 [E2 _]]].
  exists st'. split; auto.
Qed.

Lemma elab_agrees fuel : forall W (wr : writer W) eoc stack cursor st,
  agrees wr (elab fuel eoc stack cursor) st (fc fuel W wr eoc stack cursor st).
Proof.
  induction fuel as [|fuel IH]; intros W wr eoc stack cursor st;
    cbn [elab format_cursor]; [apply agrees_stop|].
  destruct cursor as [|it rest]; [apply agrees_stop|].
  destruct stack as [|head below]; [apply agrees_stop|].
  assert (ONE : forall a, do_atom wr cfg a st = run_atoms wr cfg [a] st)
    by (intros a; cbn; destruct (do_atom wr cfg a st) as [? [|]]; auto).
  destruct it as [s|p l|p l| | | |n|e| | |].
  - apply agrees_next; auto. destruct (in_quote head); [apply write_all_atoms|].
    apply (ONE (AText (content s))).
  - apply agrees_next; auto. apply write_all_atoms.
  - apply (agrees_next wr [] _ st (st, true)
       (fc fuel W wr eoc (head :: below) rest) rest); auto.
  - apply (agrees_next wr [APush] _ st (f_push st, true)
       (fc fuel W wr eoc (head :: below) rest) rest); auto.
  - apply (agrees_next wr [ALine] _ st (f_do_line st, true)
       (fc fuel W wr eoc (head :: below) rest) rest); auto.
  - apply (agrees_next wr [ASpace] _ st (f_space st, true)
       (fc fuel W wr eoc (head :: below) rest) rest); auto.
  - pose proof (ONE (AIndent n)) as O. cbn [do_atom] in O.
    destruct (Z.eqb n 0).
    + apply (agrees_next wr [AIndent n] _ st (st, true)
       (fc fuel W wr eoc (head :: below) rest) rest); auto.
    + apply (agrees_next wr [AIndent n] _ st (f_indentation n st, true)
       (fc fuel W wr eoc (head :: below) rest) rest); auto.
  - destruct (negb (in_quote head)).
    { apply agrees_next; auto. apply write_all_atoms. }
    destruct (negb e); [|apply agrees_stop].
    rewrite write_all_atoms.
    pose proof (IH str string_writer true [mk_frame false false false] rest) as A.
    destruct (elab fuel true [mk_frame false false false] rest) as [[l rest'] ok'] eqn:El.
    destruct (run_string_new (texts (l_open_quote ops false) ++ l ++
      texts (l_close_quote ops false)) ([] : str)) as [st3 [R1 R2]].
    rewrite run_atoms_app in R1.
    change (@formatter_new str) with (@formatter_new (list N)) in R1. revert R1.
    destruct (run_atoms string_writer cfg (texts (l_open_quote ops false)) (formatter_new []))
      as [out ok1]. destruct ok1; cbn [and_then]; intros R1; [|discriminate R1].
    rewrite run_atoms_app in R1.
    specialize (A out). cbn [agrees] in A. revert R1 A.
    destruct (run_atoms string_writer cfg l out) as [out' ok2].
    destruct ok2; cbn [and_then]; intros R1 A; [|discriminate R1].
    rewrite A. destruct ok'; [|apply agrees_stop].
    rewrite write_all_atoms. rewrite R1. cbn [app] in R2. rewrite R2.
    apply agrees_next; auto. apply write_all_atoms.
  - destruct eoc; [apply agrees_stop|]. destruct (in_quote head); [|apply agrees_stop].
    apply agrees_next; auto. apply write_all_atoms.
  - destruct (in_quote head); [|apply agrees_stop].
    destruct rest as [|[s|? ?|? ?| | | |?|?| | |] [|[?|? ?|? ?| | | |?|?| | |] rest']];
      (apply agrees_next; [apply write_all_atoms|auto]).
  - destruct (end_on_eval head); [|apply agrees_stop].
    apply agrees_next; auto. apply write_all_atoms.
Qed.

(** Fuel for the elaboration. *)
Lemma elab_fuel' f1 : forall eoc stack cursor,
  length cursor < f1 ->
  (forall f2, length cursor < f2 -> elab f2 eoc stack cursor = elab f1 eoc stack cursor) /\
  length (snd (fst (elab f1 eoc stack cursor))) <= length cursor.
Proof.
  induction f1 as [|f1 IH]; intros eoc stack cursor Hl; [lia|].
  destruct cursor as [|it rest].
  { split; [intros [|f2] H; [cbn in H; lia|]; reflexivity|cbn; lia]. }
  destruct stack as [|head below].
  { split; [intros [|f2] H; [cbn in H; lia|]; reflexivity|cbn; lia]. }
  assert (NN : forall stk (l : list atom) rst, length rst <= length rest ->
    (forall f2, length (it :: rest) < S f2 ->
      (let '(l2, r, ok) := elab f2 eoc stk rst in (l ++ l2, r, ok)) =
      (let '(l2, r, ok) := elab f1 eoc stk rst in (l ++ l2, r, ok))) /\
    length (snd (fst (let '(l2, r, ok) := elab f1 eoc stk rst in (l ++ l2, r, ok)))) <=
      length (it :: rest)).
  { intros stk l rst Hr. cbn [length] in *.
    destruct (IH eoc stk rst) as [A B]; [lia|]. split.
    - intros f2 H. rewrite (A f2) by lia. auto.
    - destruct (elab f1 eoc stk rst) as [[l2 r] ok]. cbn in *. lia. }
  assert (T : forall (r : list atom * list (item LI) * bool),
     length (snd (fst r)) <= length rest ->
     (forall f2, length (it :: rest) < S f2 -> r = r) /\
     length (snd (fst r)) <= length (it :: rest)) by (intros; cbn; split; auto).
  assert (PF : forall F : nat -> list atom * list (item LI) * bool,
     (forall f2, length (it :: rest) < S f2 -> F f2 = F f1) /\
     length (snd (fst (F f1))) <= length (it :: rest) ->
     (forall f2, elab (S f2) eoc (head :: below) (it :: rest) = F f2) ->
     (forall f2, length (it :: rest) < f2 ->
       elab f2 eoc (head :: below) (it :: rest) =
       elab (S f1) eoc (head :: below) (it :: rest)) /\
     length (snd (fst (elab (S f1) eoc (head :: below) (it :: rest)))) <=
       length (it :: rest)).
  { intros F [F1 F2] E. split; [|rewrite E; auto].
    intros [|f2] H; [cbn in H; lia|]. rewrite !E. apply F1. lia. }
  eapply PF; [|intros f2; cbn [elab]; reflexivity]. cbv beta.
  destruct it as [s|p l|p l| | | |n|e| | |]; try (apply NN; lia).
  - destruct (negb (in_quote head)); [apply NN; lia|].
    destruct (negb e); [|apply T; auto].
    cbn [length] in Hl.
    destruct (IH true [mk_frame false false false] rest) as [A B]; [lia|].
    destruct (elab f1 true [mk_frame false false false] rest) as [[l rest'] ok'] eqn:E1.
    cbn [fst snd] in B.
    destruct (NN (head :: below) (texts (l_write_quoted ops
                    (text nl (layout ind (texts (l_open_quote ops false) ++ l ++
                                          texts (l_close_quote ops false)))))) rest' B) as [G1 G2].
    split.
    + intros f2 H. cbn [length] in H. rewrite (A f2) by lia. destruct ok'; [apply G1; cbn; auto|auto].

    + destruct ok'; [apply G2|cbn; lia].
  - destruct eoc; [apply T; auto|]. destruct (in_quote head); [|apply T; auto].
    apply NN; lia.
  - destruct (in_quote head); [|apply T; auto].
    destruct rest as [|[s|? ?|? ?| | | |?|?| | |] [|[?|? ?|? ?| | | |?|?| | |] rest']];
      apply NN; cbn; lia.
  - destruct (end_on_eval head); [|apply T; auto]. apply NN; lia.
Qed.

Definition E (eoc : bool) stack cursor := elab (S (length cursor)) eoc stack cursor.

Lemma elab_E f eoc stack cursor : length cursor < f ->
  elab f eoc stack cursor = E eoc stack cursor.
Proof. intros H. apply (elab_fuel' (S (length cursor))); auto. Qed.

Lemma E_rest eoc stack cursor : length (snd (fst (E eoc stack cursor))) <= length cursor.
Proof. apply (elab_fuel' (S (length cursor))); auto. Qed.

Definition pre (l : list atom) (e : list atom * list (item LI) * bool) :=
  let '(l2, r, ok) := e in (l ++ l2, r, ok).

Lemma pre_pre a b e : pre a (pre b e) = pre (a ++ b) e.
Proof. destruct e as [[l r] ok]; cbn. rewrite app_assoc; auto. Qed.
Lemma pre_nil e : pre [] e = e.
Proof. destruct e as [[l r] ok]; auto. Qed.

(** Unfolding equations *)
Ltac unfold_E rest :=
  unfold E at 1; cbn [length];
  let f := fresh "f" in let Hf := fresh "Hf" in
  set (f := S (length rest)); assert (Hf : length rest < f) by lia;
  clearbody f; cbn [elab].

Lemma E_nil eoc stack : E eoc stack [] = ([], [], true).
Proof. reflexivity. Qed.
Lemma E_plain eoc head below x rest : plain x = true ->
  E eoc (head :: below) (x :: rest) =
  pre (if in_quote head then string_item ops x else atoms_of ops x)
      (E eoc (head :: below) rest).
Proof.
  intros P. unfold_E rest.
  destruct x; try discriminate P; unfold string_item;
    rewrite elab_E by lia; destruct (in_quote head); auto.
Qed.
Lemma E_open eoc e head below rest : in_quote head = false ->
  E eoc (head :: below) (OpenQuote e :: rest) =
  pre (texts (l_open_quote ops e))
    (E eoc (mk_frame true e (end_on_eval head) :: below) rest).
Proof.
  intros H. unfold_E rest. rewrite H. cbn [negb].
  rewrite elab_E by lia. reflexivity.
Qed.
Lemma E_close head below rest : in_quote head = true ->
  E false (head :: below) (CloseQuote :: rest) =
  pre (texts (l_close_quote ops (has_eval head)))
    (E false (mk_frame false false (end_on_eval head) :: below) rest).
Proof.
  intros H. unfold_E rest. rewrite H.
  rewrite elab_E by lia. reflexivity.
Qed.
Lemma E_close_eoc head below rest :
  E true (head :: below) (CloseQuote :: rest) = ([], rest, true).
Proof. reflexivity. Qed.
Lemma E_nested eoc head below rest : in_quote head = true ->
  E eoc (head :: below) (OpenQuote false :: rest) =
  match E true [mk_frame false false false] rest with
  | (_, rest, false) => ([], rest, false)
  | (l, rest, true) =>
      pre (texts (l_write_quoted ops
        (text nl (layout ind (texts (l_open_quote ops false) ++ l ++
                              texts (l_close_quote ops false))))))
        (E eoc (head :: below) rest)
  end.
Proof.
  intros H. unfold_E rest. rewrite H. cbn [negb].
  rewrite elab_E by lia.
  pose proof (E_rest true [mk_frame false false false] rest) as R.
  destruct (E true [mk_frame false false false] rest) as [[l rest'] [|]]; auto.
  cbn in R. rewrite elab_E by lia. reflexivity.
Qed.
Lemma E_eval_literal eoc head below s rest : in_quote head = true ->
  E eoc (head :: below) (OpenEval :: Literal s :: CloseEval :: rest) =
  pre (texts (l_string_eval_literal ops (content s))) (E eoc (head :: below) rest).
Proof.
  intros H. unfold E at 1. cbn [length].
  set (f := S (S (S (length rest)))). assert (Hf : length rest < f) by lia.
  clearbody f. cbn [elab]. rewrite H.
  rewrite elab_E by lia. reflexivity.
Qed.
Lemma E_eval eoc head below rest : in_quote head = true ->
  (forall s rest', rest <> Literal s :: CloseEval :: rest') ->
  E eoc (head :: below) (OpenEval :: rest) =
  pre (texts (l_start_string_eval ops))
    (E eoc (mk_frame false false true :: head :: below) rest).
Proof.
  intros H N. unfold_E rest. rewrite H.
  destruct rest as [|[s|? ?|? ?| | | |?|?| | |] [|[?|? ?|? ?| | | |?|?| | |] rest']];
    try (exfalso; eapply N; reflexivity);
    (rewrite elab_E by (cbn in *; lia); reflexivity).
Qed.
Lemma E_close_eval eoc head below rest : end_on_eval head = true ->
  E eoc (head :: below) (CloseEval :: rest) =
  pre (texts (l_end_string_eval ops)) (E eoc below rest).
Proof.
  intros H. unfold_E rest. rewrite H.
  rewrite elab_E by lia. reflexivity.
Qed.

(** ** Plain sequences and documents *)

Lemma E_plains eoc head below xs rest : forallb plain xs = true -> in_quote head = false ->
  E eoc (head :: below) (xs ++ rest) = pre (atoms ops xs) (E eoc (head :: below) rest).
Proof.
  intros P Hq; induction xs as [|x xs IH]; cbn [app atoms flat_map].
  - rewrite pre_nil; auto.
  - cbn in P. apply andb_prop in P as [P1 P2]. rewrite E_plain, Hq, IH by auto.
    apply pre_pre.
Qed.

Lemma node_first n : node_ok n = true ->
  exists x xs, node_items n = x :: xs /\ x <> @CloseEval LI.
Proof.
  destruct n as [x|e ps]; cbn; intros H.
  - exists x, []. split; auto. intros ->; discriminate.
  - eexists; eexists; split; [reflexivity|discriminate].
Qed.

Lemma doc_not_literal_close ns rest : doc_ok ns = true ->
  single_literal ns = None -> forall s rest',
  doc_items ns ++ CloseEval :: rest <> Literal s :: @CloseEval LI :: rest'.
Proof.
  intros Hok Hs s rest' H.
  destruct ns as [|n ns]; [discriminate H|].
  cbn [doc_items flat_map] in *. fold (doc_items ns) in *.
  cbn [doc_ok forallb] in Hok. apply andb_prop in Hok as [H1 H2].
  destruct n as [x|e ps].
  - cbn [node_items app] in *. inversion H as [[Hx Hr]]. subst x.
    destruct ns as [|n2 ns].
    + cbn in Hs. discriminate.
    + cbn [doc_items flat_map] in Hr. cbn [doc_ok forallb] in H2. apply andb_prop in H2 as [H2 H3].
      destruct (node_first n2 H2) as [y [ys [E1 E2]]]. rewrite E1 in Hr.
      inversion Hr; congruence.
  - discriminate H.
Qed.

Lemma node_items_string e (ps : list (part LI)) :
  node_items (NString e ps) = OpenQuote e :: flat_map part_items ps ++ [CloseQuote].
Proof. reflexivity. Qed.
Lemma part_items_eval (ns : list (node LI)) :
  part_items (PEval ns) = OpenEval :: flat_map node_items ns ++ [CloseEval].
Proof. reflexivity. Qed.
Lemma node_atoms_string e ps : node_atoms ops cfg (NString e ps) =
  texts (l_open_quote ops e) ++ flat_map (part_atoms ops cfg) ps ++
  texts (l_close_quote ops e).
Proof. reflexivity. Qed.
Lemma part_atoms_eval ns : part_atoms ops cfg (PEval ns) =
  match single_literal ns with
  | Some s => texts (l_string_eval_literal ops s)
  | None => texts (l_start_string_eval ops) ++ flat_map (node_atoms ops cfg) ns ++
            texts (l_end_string_eval ops)
  end.
Proof. reflexivity. Qed.
Lemma node_ok_string e (ps : list (part LI)) : node_ok (NString e ps) = forallb part_ok ps.
Proof. reflexivity. Qed.
Lemma part_ok_eval (ns : list (node LI)) : part_ok (PEval ns) = forallb node_ok ns.
Proof. reflexivity. Qed.

Fixpoint elab_node (n : node LI) : node_ok n = true -> forall ee below rest,
  E false (mk_frame false false ee :: below) (node_items n ++ rest) =
  pre (node_atoms ops cfg n) (E false (mk_frame false false ee :: below) rest)
with elab_part (p : part LI) : part_ok p = true -> forall h ee below rest,
  E false (mk_frame true h ee :: below) (part_items p ++ rest) =
  pre (part_atoms ops cfg p) (E false (mk_frame true h ee :: below) rest).
Proof.
  - destruct n as [x|e ps]; intros Hok ee below rest.
    + cbn in Hok. cbn [node_items app]. rewrite E_plain by auto. reflexivity.
    + rewrite node_ok_string in Hok. rewrite node_items_string, node_atoms_string. cbn [app].
      rewrite E_open by auto. rewrite <- app_assoc. cbn [app].
      assert (H : E false (mk_frame true e ee :: below)
         (flat_map part_items ps ++ CloseQuote :: rest) =
         pre (flat_map (part_atoms ops cfg) ps)
           (E false (mk_frame true e ee :: below) (CloseQuote :: rest))).
      { generalize (CloseQuote :: rest) as tl. revert Hok.
        induction ps as [|p ps IHps]; intros Hok tl; cbn [flat_map app].
        - rewrite pre_nil; auto.
        - cbn [forallb] in Hok. apply andb_prop in Hok as [H1 H2].
          rewrite <- app_assoc. rewrite (elab_part p H1). rewrite (IHps H2).
          apply pre_pre. }
      cbn [end_on_eval]. rewrite H. rewrite E_close by auto. cbn [has_eval end_on_eval].
      rewrite !pre_pre, <- app_assoc. reflexivity.
  - destruct p as [x|xs|ns]; intros Hok h ee below rest.
    + cbn in Hok. cbn [part_items app]. rewrite E_plain by auto. reflexivity.
    + cbn in Hok. cbn [part_items app]. rewrite E_nested by auto. rewrite <- app_assoc. cbn [app].
      rewrite E_plains by auto. rewrite E_close_eoc. cbn [pre]. rewrite app_nil_r. reflexivity.
    + rewrite part_ok_eval in Hok. rewrite part_items_eval, part_atoms_eval. cbn [app].
      rewrite <- app_assoc. cbn [app].
      destruct (single_literal ns) as [s|] eqn:S.
      * unfold single_literal in S. unfold doc_items in S.
        destruct (flat_map node_items ns) as [|x [|? ?]]; try discriminate;
          destruct x; try discriminate. inversion S; subst.
        cbn [app]. rewrite E_eval_literal by auto. reflexivity.
      * rewrite E_eval; [|auto|apply doc_not_literal_close; auto].
        assert (H : forall tl, E false (mk_frame false false true :: mk_frame true h ee :: below)
           (flat_map node_items ns ++ tl) =
           pre (flat_map (node_atoms ops cfg) ns)
             (E false (mk_frame false false true :: mk_frame true h ee :: below) tl)).
        { clear S. revert Hok. induction ns as [|n ns IHns]; intros Hok tl; cbn [flat_map app].
          - rewrite pre_nil; auto.
          - cbn [forallb] in Hok. apply andb_prop in Hok as [H1 H2].
            rewrite <- app_assoc. rewrite (elab_node n H1). rewrite (IHns H2).
            apply pre_pre. }
        rewrite H, E_close_eval by auto. rewrite !pre_pre, <- app_assoc. reflexivity.
Qed.

Lemma elab_doc ns rest ee below : doc_ok ns = true ->
  E false (mk_frame false false ee :: below) (doc_items ns ++ rest) =
  pre (doc_atoms ops cfg ns) (E false (mk_frame false false ee :: below) rest).
Proof.
  revert rest; induction ns as [|n ns IH]; intros rest Hok.
  - cbn. rewrite pre_nil; auto.
  - cbn [doc_items doc_atoms flat_map]. cbn [doc_ok forallb] in Hok.
    apply andb_prop in Hok as [H1 H2]. rewrite <- app_assoc, elab_node by auto.
    change (flat_map node_items ns) with (doc_items ns).
    rewrite IH by auto. apply pre_pre.
Qed.

(** ** Formatting results *)

Lemma format_items_elab {W} (wr : writer W) its st :
  let '(l, _, ok) := E false [mk_frame false false false] its in
  format_items ops cfg wr its st =
  (fst (run_atoms wr cfg l st), snd (run_atoms wr cfg l st) && ok).
Proof.
  pose proof (elab_agrees (S (length its)) W wr false [mk_frame false false false] its st) as A.
  fold (E false [mk_frame false false false] its) in A.
  destruct (E false [mk_frame false false false] its) as [[l rest] ok].
  unfold format_items. cbn [agrees] in A.
  destruct (run_atoms wr cfg l st) as [st' [|]].
  - rewrite A. reflexivity.
  - destruct (fc (S (length its)) W wr false [mk_frame false false false] its st) as [[s r] o].
    cbn in *. destruct A as [-> ->]. reflexivity.
Qed.

Lemma format_doc {W} (wr : writer W) ns st : doc_ok ns = true ->
  format_items ops cfg wr (doc_items ns) st = run_atoms wr cfg (doc_atoms ops cfg ns) st.
Proof.
  intros Hok. pose proof (format_items_elab wr (doc_items ns) st) as F.
  pose proof (elab_doc ns [] false [] Hok) as D. rewrite app_nil_r, E_nil in D.
  cbn [pre] in D. rewrite app_nil_r in D. rewrite D in F. rewrite F.
  destruct (run_atoms wr cfg (doc_atoms ops cfg ns) st) as [s b]. cbn.
  rewrite andb_true_r; auto.
Qed.

Lemma format_plain {W} (wr : writer W) xs st : forallb plain xs = true ->
  format_items ops cfg wr xs st = run_atoms wr cfg (atoms ops xs) st.
Proof.
  intros P.
  assert (D1 : doc_items (map NItem xs) = xs)
    by (clear; induction xs as [|x xs IH]; cbn; [auto|unfold doc_items in IH; rewrite IH; auto]).
  assert (D2 : doc_atoms ops cfg (map NItem xs) = atoms ops xs)
    by (clear; induction xs as [|x xs IH]; cbn; [auto|unfold doc_atoms in IH; rewrite IH; auto]).
  rewrite <- D1 at 1. rewrite <- D2. apply format_doc.
  clear D1 D2. induction xs as [|x xs IH]; cbn in *; auto.
  apply andb_prop in P as [P1 P2]. rewrite P1; cbn; auto.
Qed.

End Elab.
