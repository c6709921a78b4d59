(** * Lemmas: which strings are read back from their quoted form. *)
From Verif Require Import Str SpecStr StrFacts Quote SpecLex LexFacts QuoteFacts.
From Coq Require Import ZifyBool ZifyNat ZifyN.

(** ** Decoders, one character at a time *)
Lemma cons_eq {A} (x y : A) l m : x :: l = y :: m -> x = y /\ l = m.
Proof. intros E. split; [exact (f_equal (hd x) E)|exact (f_equal (@tl A) E)]. Qed.
Lemma utf16_inv l s : utf16_decodes l s -> forall x l' d q, l = x :: l' -> s = d :: q ->
  ((x < 55296 \/ 57344 <= x < 65536)%N /\ x = d /\ utf16_decodes l' q) \/
  (exists w r, (55296 <= x < 56320)%N /\ (56320 <= w < 57344)%N /\ l' = w :: r /\ (65536 + (x - 55296) * 1024 + (w - 56320) = d)%N /\ utf16_decodes r q).
Proof.
  destruct 1 as [|c l s R D|h w l s R1 R2 D]; intros x l' d q E1 E2; [discriminate| |]; apply cons_eq in E1 as [E1 E1']; apply cons_eq in E2 as [E2 E2'].
  - left. rewrite <- E1, <- E2, <- E1', <- E2'. auto.
  - right. exists w, l. rewrite <- E1, <- E1', <- E2', <- E2. auto.
Qed.
Lemma utf16_step c d u q : scalar c -> utf16_decodes (utf16_units c ++ u) (d :: q) -> c = d /\ utf16_decodes u q.
Proof.
  intros C D. unfold scalar in C. unfold utf16_units in D. destruct (N.ltb_spec c 65536) as [L|L]; cbn [app] in D.
  - destruct (utf16_inv _ _ D _ _ _ _ eq_refl eq_refl) as [[R [E D']]|[w [r [R _]]]]; [auto|]. lia.
  - destruct (utf16_inv _ _ D _ _ _ _ eq_refl eq_refl) as [[R [E D']]|[w [r [R [R2 [E1 [E2 D']]]]]]].
    + pose proof (N.div_lt_upper_bound (c - 65536) 1024 1024 ltac:(lia) ltac:(lia)) as L2. set (x := ((c - 65536) / 1024)%N) in *. clearbody x. lia.
    + pose proof (N.div_mod (c - 65536) 1024 ltac:(lia)) as M. apply cons_eq in E1 as [<- <-].
      set (x := ((c - 65536) / 1024)%N) in *. set (y := ((c - 65536) mod 1024)%N) in *. clearbody x y. split; [lia|assumption].
Qed.
Lemma utf8_step c d u q : scalar c -> utf8_decodes (utf8_char c ++ u) (d :: q) -> c = d /\ utf8_decodes u q.
Proof. intros C D. inversion D as [|? ? l' ? F D']; subst. rewrite utf8_first_ok in F by exact C. inversion F; subst. auto. Qed.
Lemma utf16_head c d u q : (c < 55296)%N -> utf16_decodes (d :: u) (c :: q) -> d = c /\ utf16_decodes u q.
Proof. intros L D. destruct (utf16_inv _ _ D _ _ _ _ eq_refl eq_refl) as [[_ [E D']]|[w [r [R [R2 [_ [E _]]]]]]]; [auto|]. lia. Qed.
Lemma checked_least least v l r : checked least v l = Some r -> (least <= fst r)%N.
Proof. unfold checked. destruct ((least <=? v)%N && scalarb v)%bool eqn:B; [|discriminate]. intros E. inversion E. cbn [fst]. lia. Qed.
Lemma utf8_head c d u q : (c < 128)%N -> utf8_decodes (d :: u) (c :: q) -> d = c /\ utf8_decodes u q.
Proof.
  intros L D. inversion D as [|? ? l' ? F D']; subst. clear D. cbn [utf8_first] in F.
  destruct (N.ltb_spec d 128); [inversion F; subst; auto|]. exfalso.
  destruct ((192 <=? d) && (d <? 224))%N.
  { destruct u as [|b u]; [discriminate|]. destruct (cont b); [|discriminate]. apply checked_least in F. cbn [fst] in F. lia. }
  destruct ((224 <=? d) && (d <? 240))%N.
  { destruct u as [|b [|b2 u]]; try discriminate. destruct (cont b); [|discriminate]. destruct (cont b2); [|discriminate]. apply checked_least in F. cbn [fst] in F. lia. }
  destruct ((240 <=? d) && (d <? 248))%N; [|discriminate].
  destruct u as [|b [|b2 [|b3 u]]]; try discriminate. destruct (cont b); [|discriminate]. destruct (cont b2); [|discriminate].
  destruct (cont b3); [|discriminate]. apply checked_least in F. cbn [fst] in F. lia.
Qed.

(** ** Texts *)
Lemma emit_some v r u x : emit v r = Some (u, x) -> exists u', r = Some (u', x) /\ u = v ++ u'.
Proof. destruct r as [[u' y]|]; cbn; intros E; inversion E; subst; eauto. Qed.

Section Exact.
Variables (g : grammar) (f enc : N -> list N) (dec : list N -> str -> Prop) (tail : str).
Variable ok : N -> str -> Prop.
Notation text s := (flat_map f s ++ tail).
Hypothesis step : forall c d u q, scalar c -> dec (enc c ++ u) (d :: q) -> c = d /\ dec u q.
(** Each character is good and read back, or the text is not read back. *)
Hypothesis cases : forall c q, scalar c -> valid q ->
  (ok c q /\ lex g MText (text (c :: q)) = emit (enc c) (lex g MText (text q))) \/
  (forall u, lex g MText (text (c :: q)) = Some (u, tail) -> ~ dec u (c :: q)).
Lemma exact_text s : valid s -> forall u, lex g MText (text s) = Some (u, tail) -> dec u s ->
  forall p c q, s = p ++ c :: q -> ok c q.
Proof.
  induction 1 as [|c s C V IH]; intros u L D p c' q E; [destruct p; discriminate|].
  destruct (cases c s C V) as [[K E']|B]; [|elim (B u L D)].
  rewrite E' in L. apply emit_some in L as [u' [L ->]]. destruct (step c c u' s C D) as [_ D'].
  destruct p as [|x p]; inversion E; subst; [exact K|]. exact (IH u' L D' p c' q eq_refl).
Qed.
End Exact.

(** What a literal says about the text between the quotes. *)
Lemma denotes_text g (f : N -> list N) s v : denotes g (34%N :: flat_map f s ++ [34%N]) v -> lex g MText (flat_map f s ++ [34%N]) = Some (v, [34%N]).
Proof.
  intros D. specialize (D []). rewrite app_nil_r in D. cbn [read_literal] in D. rewrite N.eqb_refl in D.
  destruct (lex g MText (flat_map f s ++ [34%N])) as [[v' [|c' rest]]|]; try discriminate. destruct (N.eqb_spec c' 34) as [->|]; [|discriminate]. inversion D; subst; reflexivity.
Qed.

(** ** Hexadecimal escapes that go on *)
Lemma hex_plain d : is_hex (Some d) = true -> c_family_char d = [d].
Proof.
  intros H. cbn [is_hex] in H. unfold hex_digit in H. unfold c_family_char, is_ascii, is_control.
  destruct ((48 <=? d) && (d <=? 57))%N eqn:A; [|destruct ((97 <=? d) && (d <=? 102))%N eqn:B; [|destruct ((65 <=? d) && (d <=? 70))%N eqn:C; [|discriminate]]];
  repeat match goal with |- context [N.eqb d ?k] => replace (N.eqb d k) with false by lia end;
  repeat match goal with |- context [if ?b then _ else _] => first [replace b with true by lia|replace b with false by lia]; cbn iota end; reflexivity.
Qed.
Section Eat.
Variables (g : grammar) (e : number_escape) (tail : str).
Hypothesis stop : is_hex (hd_error tail) = false.
Notation text s := (flat_map c_family_char s ++ tail).
Lemma hex_next s : is_hex (hd_error (text s)) = true -> exists d q, s = d :: q /\ is_hex (Some d) = true.
Proof.
  destruct s as [|d q]; cbn [flat_map app]; [rewrite stop; discriminate|]. rewrite <- app_assoc.
  destruct (c_family_first d (text q)) as [x [r [E [X|X]]]]; rewrite E; cbn [hd_error]; intros H; subst x; [discriminate|]. eauto.
Qed.
Lemma eats s : forall n acc, is_hex (hd_error (text s)) = true -> n_min e <= S n -> exists p q acc',
  s = p ++ q /\ p <> [] /\ (acc * 16 <= acc')%N /\ lex g (MNumber e n acc) (text s) = emit_opt (n_value e acc') (lex g MText (text q)).
Proof.
  induction s as [|d q IH]; intros n acc H M; [cbn [flat_map app] in H; rewrite stop in H; discriminate|].
  destruct (hex_next _ H) as [d' [q' [E X]]]. inversion E; subst d' q'. clear E.
  cbn [flat_map]. rewrite (hex_plain d X). cbn [app lex]. cbn [is_hex] in X. destruct (hex_digit d) as [v|]; [|discriminate].
  destruct (n_more e (S n) && is_hex (hd_error (text q))) eqn:B.
  - apply andb_prop in B as [_ B]. destruct (IH (S n) (acc * 16 + v)%N B ltac:(lia)) as [p [q' [acc' [-> [P [A L]]]]]].
    exists (d :: p), q', acc'. split; [reflexivity|]. split; [discriminate|]. split; [lia|]. exact L.
  - exists [d], q, (acc * 16 + v)%N. split; [reflexivity|]. split; [discriminate|]. split; [lia|].
    replace (Nat.leb (n_min e) (S n)) with true by lia. reflexivity.
Qed.
Lemma escape_eats c s : (c < 256)%N -> g_stop g 92 (Some 120%N) = false -> g_braced g 120 = None -> g_number g 120 = Some e ->
  n_more e 1 = true -> n_more e 2 = true -> n_min e = 1 -> is_hex (hd_error (text s)) = true -> exists p q acc',
  s = p ++ q /\ p <> [] /\ (c * 16 <= acc')%N /\
  lex g MText (92%N :: 120%N :: hex_pad 2 c ++ text s) = emit_opt (n_value e acc') (lex g MText (text q)).
Proof.
  intros C S1 S2 S3 M1 M2 M H. pose proof (hex_pad_length c 1 ltac:(cbn; lia)) as L.
  destruct (hex_pad_as_digits 2 c) as [ds [E [F [NE V]]]]. rewrite E in L |- *. rewrite map_length in L.
  destruct ds as [|a [|b [|? ?]]]; try discriminate. inversion F as [|? ? Fa F']; subst. inversion F' as [|? ? Fb _]; subst.
  destruct (eats s 2 (a * 16 + b)%N H ltac:(lia)) as [p [q [acc' [Es [P [A L']]]]]]. exists p, q, acc'. split; [exact Es|]. split; [exact P|].
  unfold digits_value in *. cbn [fold_left] in *. split; [lia|]. rewrite <- L'. cbn [map app]. cbn [lex hd_error]. rewrite S1, S2, S3. cbn [N.eqb]. replace (N.eqb 92 92) with true by reflexivity.
  rewrite (hex_digit_ok a Fa), (hex_digit_ok b Fb), M1, M2, (is_hex_char b Fb), H. cbn [andb]. reflexivity.
Qed.
End Eat.

(** ** How much is read *)
Lemma utf16_length u s : utf16_decodes u s -> length u = length (flat_map utf16_units s).
Proof.
  induction 1 as [|c l s R D IH|h w l s R1 R2 D IH]; [reflexivity| |]; cbn [flat_map]; rewrite app_length, <- IH; unfold utf16_units.
  - replace (c <? 65536)%N with true by lia. cbn [length]. lia.
  - match goal with |- context [if ?b then _ else _] => replace b with false by lia end. cbn [length]. lia.
Qed.
Lemma utf8_first_length l c r : utf8_first l = Some (c, r) -> length l = length (utf8_char c) + length r.
Proof.
  assert (K : forall b x, cont b = Some x -> (x < 64)%N) by (intros b x; unfold cont; destruct ((128 <=? b) && (b <? 192))%N eqn:B; intros E; inversion E; lia).
  assert (G : forall least v l r, checked least v l = Some r -> r = (v, l) /\ (least <= v)%N)
    by (intros least v l0 r0; unfold checked; destruct ((least <=? v)%N && scalarb v)%bool eqn:B; intros E; inversion E; split; [reflexivity|lia]).
  destruct l as [|d u]; [discriminate|]. cbn [utf8_first]. intros F. unfold utf8_char.
  destruct (N.ltb_spec d 128); [inversion F; subst; replace (c <? 128)%N with true by lia; reflexivity|].
  destruct ((192 <=? d) && (d <? 224))%N eqn:A1.
  { destruct u as [|b u]; [discriminate|]. destruct (cont b) as [x|] eqn:X; [|discriminate]. apply K in X. apply G in F as [F L]. inversion F as [[Ec Er]].
    set (v := ((d - 192) * 64 + x)%N) in *. assert (v < 2048)%N by lia. clearbody v.
    replace (v <? 128)%N with false by lia. replace (v <? 2048)%N with true by lia. reflexivity. }
  destruct ((224 <=? d) && (d <? 240))%N eqn:A2.
  { destruct u as [|b [|b2 u]]; try discriminate. destruct (cont b) as [x|] eqn:X; [|discriminate]. destruct (cont b2) as [y|] eqn:Y; [|discriminate]. apply K in X. apply K in Y.
    apply G in F as [F L]. inversion F as [[Ec Er]]. set (v := ((d - 224) * 4096 + x * 64 + y)%N) in *. assert (v < 65536)%N by lia. clearbody v.
    replace (v <? 128)%N with false by lia. replace (v <? 2048)%N with false by lia. replace (v <? 65536)%N with true by lia. reflexivity. }
  destruct ((240 <=? d) && (d <? 248))%N eqn:A3; [|discriminate].
  destruct u as [|b [|b2 [|b3 u]]]; try discriminate. destruct (cont b) as [x|] eqn:X; [|discriminate]. destruct (cont b2) as [y|] eqn:Y; [|discriminate].
  destruct (cont b3) as [z|] eqn:Z; [|discriminate]. apply G in F as [F L]. inversion F as [[Ec Er]]. set (v := ((d - 240) * 262144 + x * 4096 + y * 64 + z)%N) in *. clearbody v.
  replace (v <? 128)%N with false by lia. replace (v <? 2048)%N with false by lia. replace (v <? 65536)%N with false by lia. reflexivity.
Qed.
Lemma utf8_length u s : utf8_decodes u s -> length u = length (flat_map utf8_char s).
Proof. induction 1 as [|l c l' s F D IH]; [reflexivity|]. rewrite (utf8_first_length _ _ _ F). cbn [flat_map]. rewrite app_length, IH. reflexivity. Qed.

(** Escapes that swallow what follows: no more is read than was written, and after
    such an escape too little. *)
Section Swallow.
Variables (g : grammar) (e : number_escape) (enc : N -> list N) (dec : list N -> str -> Prop) (tail : str).
Notation text s := (flat_map c_family_char s ++ tail).
Hypothesis stop : is_hex (hd_error tail) = false.
Hypothesis end_ : lex g MText tail = Some ([], tail).
Hypothesis G1 : g_stop g 92 (Some 120%N) = false.
Hypothesis G2 : g_braced g 120 = None.
Hypothesis G3 : g_number g 120 = Some e.
Hypothesis M1 : n_more e 1 = true.
Hypothesis M2 : n_more e 2 = true.
Hypothesis M : n_min e = 1.
Hypothesis one : forall n v, n_value e n = Some v -> v = [n].
Hypothesis enc_ascii : forall c, (c < 128)%N -> enc c = [c].
Hypothesis enc_some : forall c, 1 <= length (enc c).
Hypothesis dec_length : forall u s, dec u s -> length u = length (flat_map enc s).
Hypothesis dec_head : forall c d u q, (c < 128)%N -> dec (d :: u) (c :: q) -> d = c /\ dec u q.
Hypothesis char_ok : forall c rest, scalar c -> (hex_escaped c = true -> is_hex (hd_error rest) = false) ->
  lex g MText (c_family_char c ++ rest) = None \/ lex g MText (c_family_char c ++ rest) = emit (enc (vf_fix c)) (lex g MText rest).
Lemma hex_escaped_text c : hex_escaped c = true -> c_family_char c = 92%N :: 120%N :: hex_pad 2 c /\ (c < 128)%N.
Proof.
  unfold hex_escaped, is_control, is_ascii. intros H. cbn [existsb] in H. unfold c_family_char.
  repeat match goal with |- context [N.eqb c ?k] => replace (N.eqb c k) with false by lia end. unfold is_ascii, is_control.
  replace (c <? 128)%N with true by lia. match goal with |- context [negb ?b] => replace b with true by lia end. split; [reflexivity|lia].
Qed.
Lemma fix_length c : length (enc (vf_fix c)) = length (enc c).
Proof. unfold vf_fix. destruct (N.eqb_spec c 18) as [->|]; [rewrite !enc_ascii by lia; reflexivity|]. destruct (N.eqb_spec c 17) as [->|]; [rewrite !enc_ascii by lia; reflexivity|reflexivity]. Qed.
Lemma read_length n : forall s, length s <= n -> valid s -> forall u r, lex g MText (text s) = Some (u, r) -> length u <= length (flat_map enc s).
Proof.
  induction n as [|n IH]; intros s Ln V u r L.
  - destruct s; [|cbn in Ln; lia]. cbn [flat_map app] in L. rewrite end_ in L. inversion L; subst. cbn. lia.
  - destruct s as [|c s]; [cbn [flat_map app] in L; rewrite end_ in L; inversion L; subst; cbn; lia|]. inversion V as [|? ? C V']; subst. cbn [length] in Ln.
    cbn [flat_map] in L |- *. rewrite <- app_assoc in L. rewrite app_length.
    destruct (hex_escaped c && is_hex (hd_error (text s)))%bool eqn:B.
    + apply andb_prop in B as [B1 B2]. destruct (hex_escaped_text c B1) as [E1 E2]. rewrite E1 in L. cbn [app] in L.
      destruct (escape_eats g e tail stop c s ltac:(lia) G1 G2 G3 M1 M2 M B2) as [p [q [acc' [-> [P [A L']]]]]]. rewrite L' in L.
      destruct (n_value e acc') as [v|] eqn:Ev; [|discriminate]. apply one in Ev. subst v. cbn [emit_opt] in L. apply emit_some in L as [u' [L ->]].
      apply Forall_app in V' as [_ Vq]. pose proof (IH q ltac:(rewrite app_length in Ln; lia) Vq u' r L) as Lu. rewrite flat_map_app, !app_length. rewrite (enc_ascii c) by exact E2. cbn [length]. lia.
    + destruct (char_ok c (text s) C) as [N'|N']; [intros X; rewrite X in B; exact B|rewrite N' in L; discriminate|]. rewrite N' in L.
      apply emit_some in L as [u' [L ->]]. pose proof (IH s ltac:(lia) V' u' r L). rewrite app_length, fix_length. lia.
Qed.
Lemma swallows c s : scalar c -> valid s -> hex_escaped c = true -> is_hex (hd_error (text s)) = true ->
  forall u r, lex g MText (text (c :: s)) = Some (u, r) -> ~ dec u (c :: s).
Proof.
  intros C V B1 B2 u r L D. destruct (hex_escaped_text c B1) as [E1 E2]. cbn [flat_map] in L. rewrite <- app_assoc, E1 in L. cbn [app] in L.
  destruct (escape_eats g e tail stop c s ltac:(lia) G1 G2 G3 M1 M2 M B2) as [p [q [acc' [-> [P [A L']]]]]]. rewrite L' in L.
  destruct (n_value e acc') as [v|] eqn:Ev; [|discriminate]. apply one in Ev. subst v. cbn [emit_opt] in L. apply emit_some in L as [u' [L ->]]. cbn [app] in D.
  destruct (dec_head _ _ _ _ E2 D) as [_ D']. apply dec_length in D'. apply Forall_app in V as [_ Vq]. pose proof (read_length _ q (le_n _) Vq u' r L) as Lu.
  rewrite flat_map_app, app_length in D'. destruct p as [|x p]; [congruence|]. cbn [flat_map] in D'. rewrite app_length in D'. pose proof (enc_some x). lia.
Qed.
End Swallow.
