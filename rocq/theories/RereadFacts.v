(** * Reading respaced code. *)
From Verif Require Import Str SpecStr Tokens Macro SpecMacro Parse SpecParse SpecLex SpecReread.
From Coq Require Import Lia.

(** ** Looking ahead *)
Definition ends (r : str) : Prop := match r with [] => True | c :: _ => is_white c = true end.
Inductive alike : str -> str -> Prop :=
| alike_white r r' : ends r -> ends r' -> alike r r'
| alike_char c r r' : alike r r' -> alike (c :: r) (c :: r')
| alike_quote r r' : alike (34%N :: r) (34%N :: r').

Lemma next_alike f r r' : (forall c, is_white c = true -> f c = false) -> alike r r' -> next_satisfies f r = next_satisfies f r'.
Proof.
  intros W A. destruct A as [r r' E E'|c r r' _|r r']; [|reflexivity|reflexivity].
  transitivity false; [destruct r|symmetry; destruct r']; cbn in *; auto.
Qed.
Lemma alike_app w r r' : alike r r' -> alike (w ++ r) (w ++ r').
Proof. intros A. induction w; [exact A|]. cbn. apply alike_char. assumption. Qed.
Lemma alike_head c r r' : is_white c = false -> c <> 34%N -> alike (c :: r) r' -> exists r'', r' = c :: r'' /\ alike r r''.
Proof. intros W Q A. inversion A; subst; [cbn in *; congruence|eauto|congruence]. Qed.
Lemma alike_not c r r' : is_white c = false -> next_satisfies (N.eqb c) r = false -> alike r r' -> next_satisfies (N.eqb c) r' = false.
Proof.
  intros W N A. rewrite <- N. symmetry. apply next_alike; [|exact A]. intros d D. apply N.eqb_neq. intros ->. congruence.
Qed.

Lemma take_split f s a b : take_while f s = (a, b) -> s = a ++ b /\ forallb f a = true /\ next_satisfies f b = false.
Proof.
  revert a b. induction s as [|c s IH]; intros a b H; cbn in H.
  - injection H as <- <-. auto.
  - destruct (f c) eqn:F.
    + destruct (take_while f s) as [a' b']. injection H as <- <-. destruct (IH _ _ eq_refl) as (E & A & B). subst s. cbn. rewrite F. auto.
    + injection H as <- <-. cbn. auto.
Qed.
Lemma take_join f a b : forallb f a = true -> next_satisfies f b = false -> take_while f (a ++ b) = (a, b).
Proof.
  induction a as [|c a IH]; cbn; intros A B.
  - destruct b as [|c b]; [reflexivity|]. cbn in *. rewrite B. reflexivity.
  - apply andb_prop in A as [A1 A2]. rewrite A1, IH by auto. reflexivity.
Qed.
Lemma white_cases c : is_white c = true -> c = 32%N \/ c = 9%N \/ c = 10%N \/ c = 13%N.
Proof. unfold is_white. intros H. repeat (apply orb_prop in H as [H|H]); apply N.eqb_eq in H; auto. Qed.
Ltac white := let c := fresh in let H := fresh in intros c H; apply white_cases in H as [->|[->|[->| ->]]]; reflexivity.
Lemma take_local f s a b b' : (forall c, is_white c = true -> f c = false) -> take_while f s = (a, b) -> alike b b' ->
  take_while f (a ++ b') = (a, b').
Proof.
  intros W T A. apply take_split in T as (-> & F & N). apply take_join; [exact F|]. rewrite <- N. symmetry. apply next_alike; auto.
Qed.

Lemma number_local s a b : number s = (a, b) -> s = a ++ b /\ forall b', alike b b' -> number (a ++ b') = (a, b').
Proof.
  unfold number. destruct (take_while name_char s) as [x r] eqn:T. pose proof (take_split _ _ _ _ T) as (-> & F & N).
  assert (P : forall b', next_satisfies name_char b' = false -> take_while name_char (x ++ b') = (x, b')) by (intros; apply take_join; auto).
  assert (D : next_satisfies (N.eqb 46) r = true \/ next_satisfies (N.eqb 46) r = false) by (destruct (next_satisfies (N.eqb 46) r); auto).
  destruct D as [D|D].
  - destruct r as [|c r]; [discriminate|]. cbn [next_satisfies] in D. apply N.eqb_eq in D as <-.
    destruct (next_satisfies digit_char r) eqn:D1.
    + destruct (take_while name_char r) as [y z] eqn:T2. intros H. injection H as <- <-. pose proof (take_split _ _ _ _ T2) as (-> & F2 & N2).
      split; [rewrite <- app_assoc; reflexivity|]. intros b' A. rewrite <- app_assoc. cbn [app]. rewrite P by reflexivity.
      assert (E : next_satisfies digit_char (y ++ b') = true).
      { destruct y; [|exact D1]. cbn [app] in *. rewrite <- D1. symmetry. apply next_alike; [white|exact A]. }
      rewrite E. rewrite (take_local name_char _ _ _ b' ltac:(white) T2 A). reflexivity.
    + destruct (next_satisfies (fun c => name_first c || N.eqb c 46) r) eqn:D2; intros H; injection H as <- <-.
      * split; [reflexivity|]. intros b' A. apply alike_head in A as (r' & -> & A); [|reflexivity|discriminate].
        rewrite P by reflexivity. rewrite <- (next_alike digit_char _ _ ltac:(white) A), D1.
        rewrite <- (next_alike (fun c => name_first c || N.eqb c 46) _ _ ltac:(white) A), D2. reflexivity.
      * split; [rewrite <- app_assoc; reflexivity|]. intros b' A. rewrite <- app_assoc. cbn [app].
        rewrite P by reflexivity. rewrite <- (next_alike digit_char _ _ ltac:(white) A), D1.
        rewrite <- (next_alike (fun c => name_first c || N.eqb c 46) _ _ ltac:(white) A), D2. reflexivity.
  - assert (E : forall t, next_satisfies (N.eqb 46) t = false -> next_satisfies name_char t = false ->
      match t with
      | 46%N :: r' =>
          if next_satisfies digit_char r' then let '(b, r'') := take_while name_char r' in (x ++ 46%N :: b, r'')
          else if next_satisfies (fun c => name_first c || N.eqb c 46) r' then (x, t) else (x ++ [46%N], r')
      | _ => (x, t)
      end = (x, t)).
    { clear. intros [|c t] H _; [reflexivity|]. cbn [next_satisfies] in H. destruct (N.eqb_spec 46 c) as [<-|NE]; [discriminate|].
      destruct c as [|p]; [reflexivity|]. do 6 (destruct p as [p|p|]; try reflexivity). congruence. }
    rewrite E by auto. intros H. injection H as <- <-. split; [reflexivity|]. intros b' A.
    assert (N' : next_satisfies name_char b' = false) by (rewrite <- N; symmetry; apply next_alike; [white|exact A]).
    rewrite P by exact N'. apply E; [|exact N']. eapply alike_not; eauto.
Qed.
Lemma char_end_local s a b : char_end s = Some (a, b) -> s = a ++ b /\ forall b', char_end (a ++ b') = Some (a, b').
Proof.
  revert a b. induction s as [|c s IH]; intros a b H; cbn in H; [discriminate|].
  destruct (N.eqb c 39) eqn:C; [injection H as <- <-; split; [reflexivity|intros b'; cbn; rewrite C; reflexivity]|].
  destruct (is_white c) eqn:W; [discriminate|]. destruct (char_end s) as [[x y]|]; [|discriminate]. injection H as <- <-.
  destruct (IH _ _ eq_refl) as (-> & L). split; [reflexivity|]. intros b'. cbn. rewrite C, W, L. reflexivity.
Qed.
Lemma char_local s a b : char_literal s = Some (a, b) -> s = a ++ b /\ forall b', char_literal (a ++ b') = Some (a, b').
Proof.
  destruct s as [|c r]; [discriminate|]. cbn [char_literal]. destruct (N.eqb c 92) eqn:C.
  - destruct r as [|d r]; [discriminate|]. destruct (is_white d) eqn:W; [discriminate|].
    destruct (char_end r) as [[x y]|] eqn:E; [|discriminate]. intros H. injection H as <- <-.
    apply char_end_local in E as (-> & L). split; [reflexivity|]. intros b'. cbn. rewrite C, W, L. reflexivity.
  - destruct (existsb (N.eqb c) [39; 9; 10; 13]%N) eqn:Q; [discriminate|]. destruct r as [|d r]; [discriminate|]. destruct (N.eqb d 39) eqn:D; [|discriminate].
    intros H. injection H as <- <-. split; [reflexivity|]. intros b'. cbn [app char_literal]. rewrite C, Q, D. reflexivity.
Qed.

(** ** Tokens *)
Definition spelling (k : token) : str :=
  match k with
  | WName s | WNumber s | WChar s => s
  | WPunct c _ => [c]
  | WString _ => []
  | WOpen d => opener d
  | WClose d => closer d
  end.
Definition is_string (k : token) : bool := match k with WString _ => true | _ => false end.
Lemma bracket_spelling c k : bracket c = Some k -> spelling k = [c] /\ is_string k = false.
Proof.
  unfold bracket. repeat match goal with |- context [N.eqb c ?n] => destruct (N.eqb_spec c n) as [->|_] end;
    intros H; inversion H; split; reflexivity.
Qed.
Lemma take_cons (c : N) r a b : name_char c = true -> take_while name_char (c :: r) = (a, b) -> exists a', a = c :: a'.
Proof. intros H. cbn [take_while]. rewrite H. destruct (take_while name_char r). intros E. injection E as <- <-. eauto. Qed.
Lemma number_cons (c : N) r a b : digit_char c = true -> number (c :: r) = (a, b) -> exists a', a = c :: a'.
Proof.
  intros H. unfold number. destruct (take_while name_char (c :: r)) as [x y] eqn:T.
  apply take_cons in T as [x' ->]; [|unfold name_char; rewrite H; apply orb_true_r].
  intros E. repeat match type of E with context [match ?t with _ => _ end] => destruct t end; injection E as <- <-; eauto.
Qed.
Lemma read_local g g' s k b : read_token g s = Some (k, b) -> is_string k = false ->
  s = spelling k ++ b /\ spelling k <> [] /\ hd_error (spelling k) = hd_error s /\
  forall b', alike b b' -> read_token g' (spelling k ++ b') = Some (k, b').
Proof.
  destruct s as [|c r]; [discriminate|]. cbn [read_token]. destruct (N.eqb c 34) eqn:Q.
  { destruct (read_literal g (c :: r)) as [[v t]|]; [|discriminate]. intros H. injection H as <- <-. discriminate. }
  destruct (N.eqb c 39) eqn:Q2.
  { destruct (char_literal r) as [[x y]|] eqn:C.
    - intros H _. injection H as <- <-. apply char_local in C as (-> & L). cbn [spelling]. repeat split; [discriminate|].
      intros b' A. cbn [app read_token]. rewrite Q, Q2, L. reflexivity.
    - destruct (next_satisfies name_first r) eqn:N; [|discriminate]. intros H _. injection H as <- <-. cbn [spelling]. repeat split; [discriminate|].
      intros b' A. cbn [app read_token]. rewrite Q, Q2. rewrite <- (next_alike name_first _ _ ltac:(white) A), N.
      assert (X : char_literal b' = None); [|rewrite X; reflexivity].
      destruct r as [|d r]; [discriminate|]. cbn in N.
      assert (DW : is_white d = false) by (destruct (is_white d) eqn:E; auto; apply white_cases in E as [->|[->|[->| ->]]]; discriminate).
      apply alike_head in A as (r' & -> & A); [|exact DW|intros ->; discriminate]. cbn [char_literal] in *.
      destruct (N.eqb d 92) eqn:D; [apply N.eqb_eq in D as ->; discriminate|]. destruct (existsb (N.eqb d) [39; 9; 10; 13]%N); [reflexivity|].
      destruct r' as [|x r']; [reflexivity|]. destruct (N.eqb x 39) eqn:X; [|reflexivity]. exfalso. apply N.eqb_eq in X as ->.
      assert (Y : next_satisfies (N.eqb 39) r = true) by (rewrite (next_alike (N.eqb 39) _ _ ltac:(white) A); reflexivity).
      destruct r as [|y r]; [discriminate|]. cbn [next_satisfies] in Y. apply N.eqb_eq in Y as <-. discriminate. }
  destruct (name_first c) eqn:NF.
  { destruct (take_while name_char (c :: r)) as [x y] eqn:T. destruct (odd_name x y) eqn:O; [discriminate|]. intros H _. injection H as <- <-.
    pose proof (take_split _ _ _ _ T) as (E & _). pose proof (take_cons _ _ _ _ ltac:(unfold name_char; rewrite NF; reflexivity) T) as [x' X].
    cbn [spelling]. split; [exact E|]. split; [rewrite X; discriminate|]. split; [rewrite X; reflexivity|]. intros b' A.
    pose proof (take_local name_char _ _ _ b' ltac:(white) T A) as T'. rewrite X in *. cbn [app read_token]. rewrite Q, Q2, NF. cbn [app] in T'. rewrite T'.
    unfold odd_name in *. rewrite <- (next_alike (fun c => N.eqb c 34 || N.eqb c 39 || N.eqb c 35) _ _ ltac:(white) A), O. reflexivity. }
  destruct (digit_char c) eqn:DC.
  { destruct (number (c :: r)) as [x y] eqn:T. destruct (odd_number x y) eqn:O; [discriminate|]. intros H _. injection H as <- <-.
    pose proof (number_local _ _ _ T) as (E & L). pose proof (number_cons _ _ _ _ DC T) as [x' X].
    cbn [spelling]. split; [exact E|]. split; [rewrite X; discriminate|]. split; [rewrite X; reflexivity|]. intros b' A.
    specialize (L b' A). rewrite X in *. cbn [app read_token]. rewrite Q, Q2, NF, DC. cbn [app] in L. rewrite L.
    unfold odd_number in *. rewrite <- (next_alike (fun c => N.eqb c 43 || N.eqb c 45) _ _ ltac:(white) A), O. reflexivity. }
  destruct (punct_char c) eqn:PC.
  { destruct (N.eqb c 47 && next_satisfies (fun d => N.eqb d 47 || N.eqb d 42) r) eqn:O; [discriminate|]. intros H _. injection H as <- <-.
    cbn [spelling]. repeat split; [discriminate|]. intros b' A. cbn [app read_token]. rewrite Q, Q2, NF, DC, PC.
    rewrite <- (next_alike (fun d => N.eqb d 47 || N.eqb d 42) _ _ ltac:(white) A), O.
    rewrite <- (next_alike punct_char _ _ ltac:(white) A). reflexivity. }
  destruct (bracket c) as [k'|] eqn:B; [|discriminate]. intros H S. injection H as -> ->. destruct (bracket_spelling _ _ B) as [E _]. rewrite E.
  repeat split; [discriminate|]. intros b' A. cbn [app read_token]. rewrite Q, Q2, NF, DC, PC, B. reflexivity.
Qed.

(** ** Texts *)
Definition starts_dark (w : str) : Prop := match w with [] => False | c :: _ => is_white c = false end.
Inductive consists (g : grammar) : str -> list (token * str) -> Prop :=
| consists_end : consists g [] []
| consists_white c s l : is_white c = true -> consists g s l -> consists g (c :: s) l
| consists_token k w r l : starts_dark w -> read_token g (w ++ r) = Some (k, r) -> consists g r l ->
    consists g (w ++ r) ((k, w) :: l).
Lemma consists_strip g b s l : all_white b -> consists g (b ++ s) l -> consists g s l.
Proof.
  induction b as [|c b IH]; intros W H; [exact H|]. inversion W as [|? ? W1 W2]; subst. apply IH; [exact W2|].
  cbn [app] in H. inversion H as [|? ? ? _ H2|k w r l' D R C E]; subst; [exact H2|]. destruct w as [|d w]; [contradiction|].
  injection E as -> _. cbn in D. congruence.
Qed.
Lemma consists_blank g b : all_white b -> consists g b [].
Proof. induction 1; constructor; auto. Qed.
Lemma consists_prefix g b s l : all_white b -> consists g s l -> consists g (b ++ s) l.
Proof. intros W C. induction W; [exact C|]. cbn. constructor; auto. Qed.
Lemma consists_inv g w s k l : consists g (w ++ s) ((k, w) :: l) -> starts_dark w -> read_token g (w ++ s) = Some (k, s) /\ consists g s l.
Proof.
  intros C D. remember (w ++ s) as t eqn:T. remember ((k, w) :: l) as L eqn:EL. destruct C as [|c t l' W C|k' w' r l' D' R C]; [discriminate| |].
  - destruct w as [|d w]; [contradiction|]. injection T as -> _. cbn in D. congruence.
  - injection EL as -> -> ->. apply app_inv_head in T as ->. auto.
Qed.

(** A text is read in one way. *)
Lemma consists_once g s L : consists g s L -> forall L', consists g s L' -> L' = L.
Proof.
  induction 1 as [|c s l W C IH|k w r l D R C IH]; intros L' H.
  - inversion H as [| |k w r l' D R C]; [reflexivity|]. destruct w; [contradiction|discriminate].
  - inversion H as [|? ? ? _ H2|k w r l' D R C2 E]; subst; [auto|]. destruct w as [|d w]; [contradiction|]. injection E as -> _. cbn in D. congruence.
  - remember (w ++ r) as t eqn:T. destruct H as [|c t l' W H|k' w' r' l' D' R' H].
    + destruct w; [contradiction|discriminate].
    + destruct w as [|d w]; [contradiction|]. injection T as -> _. cbn in D. congruence.
    + rewrite R in R'. injection R' as <- <-. apply app_inv_tail in T as ->. f_equal. auto.
Qed.

(** What is read, respaced, reads the same. *)
Section Same.
Context (g g' : grammar) (f : list N -> list N) (lit : list N -> str) (ok : list N -> Prop).
Hypothesis lit_quote : forall v, exists r, lit v = 34%N :: r.
Hypothesis lit_reads : forall v rest, ok v -> read_literal g' (lit v ++ rest) = Some (f v, rest).
Definition rewritten (k : token) (w : str) : str := match k with WString v => lit v | _ => w end.
Definition fine (k : token) : Prop := match k with WString v => ok v | _ => True end.

Lemma read_string_text s v b : read_token g s = Some (WString v, b) -> exists r, s = 34%N :: r.
Proof.
  destruct s as [|c r]; [discriminate|]. cbn [read_token]. destruct (N.eqb c 34) eqn:Q; [apply N.eqb_eq in Q as ->; eauto|].
  intros H. exfalso. repeat match type of H with context [match ?t with _ => _ end] => destruct t eqn:?; try discriminate end.
  injection H as -> ->. match goal with B : bracket _ = Some _ |- _ => apply bracket_spelling in B as [_ B]; discriminate end.
Qed.
Lemma consists_dark g0 s L : consists g0 s L -> Forall (fun p => starts_dark (snd p)) L.
Proof. induction 1; auto. Qed.
Lemma consists_same L : forall s s', consists g s L -> Forall (fun k => fine (fst k)) L ->
  respaced (map (fun p => (snd p, rewritten (fst p) (snd p))) L) s s' ->
  alike s s' /\ consists g' s' (map (fun p => (map_string f (fst p), rewritten (fst p) (snd p))) L).
Proof.
  induction L as [|[k w] L IH]; intros s s' C F R; cbn [map fst snd] in *.
  - inversion R as [b b' B B'|]; subst. split; [|apply consists_blank; auto].
    apply alike_white; [destruct B|destruct B']; cbn; auto.
  - inversion R as [|b b' w0 w0' ws t t' B B' BB RS]; subst. inversion F as [|? ? F1 F2]; subst.
    apply consists_strip in C; [|exact B]. pose proof (consists_dark _ _ _ C) as D. inversion D as [|? ? D1 D2]; subst. cbn [fst snd] in *.
    apply consists_inv in C as [RT C]; [|exact D1]. destruct (IH _ _ C F2 RS) as [A CS].
    assert (X : alike (w ++ t) (rewritten k w ++ t') /\ starts_dark (rewritten k w) /\
                read_token g' (rewritten k w ++ t') = Some (map_string f k, t')).
    { destruct (is_string k) eqn:S.
      - destruct k; try discriminate. cbn [rewritten map_string fine] in *. destruct (lit_quote v) as [x X].
        destruct (read_string_text _ _ _ RT) as [y Y]. rewrite Y. split; [rewrite X; cbn [app]; apply alike_quote|].
        split; [rewrite X; reflexivity|]. pose proof (lit_reads v t' F1) as LR. rewrite X in *. cbn [app read_token].
        cbn [app] in LR. rewrite LR. reflexivity.
      - destruct (read_local g g' _ _ _ RT S) as (E & N & _ & L1). apply app_inv_tail in E. subst w.
        assert (RW : rewritten k (spelling k) = spelling k) by (destruct k; try reflexivity; discriminate).
        assert (MS : map_string f k = k) by (destruct k; try reflexivity; discriminate).
        rewrite RW, MS. split; [apply alike_app; exact A|]. split; [exact D1|]. apply L1. exact A. }
    destruct X as (X1 & X2 & X3). split.
    + destruct b as [|c b].
      * rewrite (proj1 BB eq_refl). exact X1.
      * destruct b' as [|c' b']; [destruct BB as [_ BB]; discriminate (BB eq_refl)|].
        inversion B; inversion B'; subst. apply alike_white; cbn; auto.
    + apply consists_prefix; [exact B'|]. constructor; auto.
Qed.
End Same.

(** ** Reading *)
Lemma firstn_consumed {A} (w r : list A) : firstn (length (w ++ r) - length r) (w ++ r) = w.
Proof. rewrite app_length, Nat.add_sub, firstn_app, firstn_all, Nat.sub_diag. cbn. apply app_nil_r. Qed.
Lemma read_token_splits g s k r : read_token g s = Some (k, r) -> exists w, s = w ++ r /\ w <> [].
Proof.
  intros H. destruct (is_string k) eqn:S.
  - destruct s as [|c s]; [discriminate|]. destruct k; try discriminate. destruct (read_string_text g _ _ _ H) as [y Y]. injection Y as -> ->.
    cbn in H. destruct (lex g MText y) as [[v' [|c' rest]]|] eqn:L; try discriminate. destruct (N.eqb c' 34); [|discriminate].
    injection H as -> ->. assert (X : exists w, y = w ++ c' :: r).
    { clear -L. revert L. generalize MText. revert v. induction y as [|c y IH]; intros v m L; [discriminate|]. cbn in L.
      assert (Y : forall o m', emit_opt o (lex g m' y) = Some (v, c' :: r) -> exists w, c :: y = w ++ c' :: r).
      { intros [o|] m' X; [|discriminate]. cbn in X. destruct (lex g m' y) as [[v1 r1]|] eqn:L1; [|discriminate]. cbn in X. injection X as <- ->.
        destruct (IH _ _ L1) as [w ->]. exists (c :: w). reflexivity. }
      assert (Z : forall m', lex g m' y = Some (v, c' :: r) -> exists w, c :: y = w ++ c' :: r).
      { intros m' X. destruct (IH _ _ X) as [w ->]. exists (c :: w). reflexivity. }
      destruct m; repeat match type of L with context [match ?t with _ => _ end] => destruct t eqn:?; try discriminate end; eauto.
      all: injection L as <- -> ->; exists []; reflexivity. }
    destruct X as [w ->]. exists (34%N :: w ++ [c']). split; [|discriminate]. cbn. rewrite <- app_assoc. reflexivity.
  - destruct (read_local g g _ _ _ H S) as (E & N & _). eauto.
Qed.
Lemma read_consists g f : forall p s l, read_from g f p s = Some l -> exists ws,
  length ws = length l /\ written p s (combine (map fst l) ws) /\ consists g s (combine (map snd l) ws).
Proof.
  induction f as [|f IH]; intros p s l H; destruct s as [|c s]; try discriminate.
  - injection H as <-. exists []. repeat split; constructor.
  - injection H as <-. exists []. repeat split; constructor.
  - cbn [read_from] in H. destruct (is_white c) eqn:W.
    + destruct (IH _ _ _ H) as (ws & E & A & B). exists ws. repeat split; [exact E| |]; constructor; auto.
    + destruct (read_token g (c :: s)) as [[k r]|] eqn:R; [|discriminate]. destruct (read_token_splits _ _ _ _ R) as (w & E & N).
      cbv zeta in H. rewrite E, firstn_consumed in H. rewrite E in R. destruct (read_from g f _ r) as [l'|] eqn:L; [|discriminate]. injection H as <-.
      destruct (IH _ _ _ L) as (ws & E2 & A & B). exists (w :: ws). cbn [length map fst snd combine]. split; [congruence|].
      rewrite E. split; constructor; auto. destruct w as [|d w]; [congruence|]. injection E as <- _. exact W.
Qed.
Lemma consists_read g s L : consists g s L -> forall f p, length s <= f -> exists l, read_from g f p s = Some l /\ map snd l = map fst L.
Proof.
  induction 1 as [|c s l W C IH|k w r l D R C IH]; intros f p F.
  - exists []. destruct f; auto.
  - destruct f as [|f]; [cbn in F; lia|]. cbn [read_from]. rewrite W. apply IH. cbn in F. lia.
  - destruct w as [|c w]; [contradiction|]. destruct f as [|f]; [cbn in F; lia|]. cbn [app read_from]. cbn in D. rewrite D. cbn [app] in R. rewrite R.
    destruct (IH f (advance p (firstn (length (c :: w ++ r) - length r) (c :: w ++ r)))) as (l' & E & M).
    { cbn in F. rewrite app_length in F. lia. }
    cbv zeta. rewrite E. eexists. split; [reflexivity|]. cbn. f_equal. exact M.
Qed.
