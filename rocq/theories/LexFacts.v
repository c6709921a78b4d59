(** * Lemmas about the literal readers of [SpecLex.v]. *)
From Verif Require Import Str SpecStr StrFacts SpecLex.
From Coq Require Import ZifyBool ZifyNat ZifyN.

Lemma emit_emit a b r : emit a (emit b r) = emit (a ++ b) r.
Proof. destruct r as [[v rest]|]; cbn; rewrite ?app_assoc; auto. Qed.
Lemma emit_nil r : emit [] r = r.
Proof. destruct r as [[v rest]|]; auto. Qed.

(** ** Hexadecimal digits *)

Lemma hex_chars_digits s :
  Forall (fun c => exists d, (d < 16)%N /\ c = hex_char d) s ->
  exists ds, s = map hex_char ds /\ Forall (fun d => (d < 16)%N) ds.
Proof.
  induction 1 as [|c s [d [Hd ->]] F [ds [-> IH]]].
  - exists []; auto.
  - exists (d :: ds). cbn; auto.
Qed.

Lemma digits_read ds : Forall (fun d => (d < 16)%N) ds ->
  read_digits hex_digit (map hex_char ds) = Some ds.
Proof. intros F. apply (read_digits_map _ _ 16); auto using hex_digit_ok. Qed.

Lemma digits_read_hex ds n : Forall (fun d => (d < 16)%N) ds ->
  read_hex (map hex_char ds) = Some n -> ds <> [] /\ digits_value 16 ds = n.
Proof.
  intros F H. unfold read_hex in H. rewrite digits_read in H by auto.
  destruct ds; cbn [map] in H; [discriminate|]. split; [discriminate|].
  cbn [option_map] in H. congruence.
Qed.

Lemma hex_as_digits n : exists ds, hex n = map hex_char ds /\
  Forall (fun d => (d < 16)%N) ds /\ ds <> [] /\ digits_value 16 ds = n.
Proof.
  destruct (hex_chars_digits _ (hex_chars n)) as [ds [E F]].
  exists ds. split; auto. split; auto. apply digits_read_hex; auto.
  rewrite <- E. apply hex_read.
Qed.
Lemma hex_pad_as_digits w n : exists ds, hex_pad w n = map hex_char ds /\
  Forall (fun d => (d < 16)%N) ds /\ ds <> [] /\ digits_value 16 ds = n.
Proof.
  destruct (hex_chars_digits _ (hex_pad_chars w n)) as [ds [E F]].
  exists ds. split; auto. split; auto. apply digits_read_hex; auto.
  rewrite <- E. apply hex_pad_read.
Qed.

Lemma hex_char_range d : (d < 16)%N ->
  (48 <= hex_char d <= 57 \/ 97 <= hex_char d <= 102)%N.
Proof. unfold hex_char. destruct (N.ltb_spec d 10); lia. Qed.

Lemma is_hex_char d : (d < 16)%N -> is_hex (Some (hex_char d)) = true.
Proof. intros H. cbn. rewrite hex_digit_ok; auto. Qed.

(** ** Number escapes *)

Lemma lex_number g e rest ds : forall n acc,
  Forall (fun d => (d < 16)%N) ds -> ds <> [] ->
  (forall k, n < k < n + length ds -> n_more e k = true) ->
  n_min e <= n + length ds ->
  n_more e (n + length ds) && is_hex (hd_error rest) = false ->
  lex g (MNumber e n acc) (map hex_char ds ++ rest) =
  emit_opt (n_value e (fold_left (fun a d => (a * 16 + d)%N) ds acc)) (lex g MText rest).
Proof.
  induction ds as [|d ds IH]; intros n acc F NE M Mi St; [congruence|].
  inversion F as [|? ? Hd F']; subst. cbn [map app lex fold_left].
  rewrite hex_digit_ok by auto.
  destruct ds as [|d' ds].
  - cbn [map app fold_left length] in *. replace (n + 1) with (S n) in * by lia.
    rewrite St. replace (Nat.leb (n_min e) (S n)) with true by lia. reflexivity.
  - inversion F' as [|? ? Hd' F'']; subst.
    rewrite M by (cbn [length]; lia). cbn [map app hd_error].
    rewrite is_hex_char by auto. cbn [andb].
    change (hex_char d' :: map hex_char ds ++ rest) with (map hex_char (d' :: ds) ++ rest).
    rewrite IH; auto; [discriminate| | |].
    + intros k Hk. apply M. cbn [length] in *; lia.
    + cbn [length] in *; lia.
    + cbn [length] in St |- *. replace (S n + S (length ds)) with (n + S (S (length ds))) by lia. auto.
Qed.

Lemma lex_braced g e rest ds : forall n acc,
  Forall (fun d => (d < 16)%N) ds ->
  1 <= n + length ds <= b_max e ->
  lex g (MBraced e n acc) (map hex_char ds ++ 125%N :: rest) =
  emit_opt (b_value e (fold_left (fun a d => (a * 16 + d)%N) ds acc)) (lex g MText rest).
Proof.
  induction ds as [|d ds IH]; intros n acc F L.
  - cbn [map app lex fold_left length] in *. rewrite N.eqb_refl.
    replace (Nat.leb 1 n && Nat.leb n (b_max e)) with true by lia. auto.
  - inversion F as [|? ? Hd F']; subst. cbn [map app lex fold_left].
    pose proof (hex_char_range d Hd). replace (hex_char d =? 125)%N with false by lia.
    rewrite hex_digit_ok by auto. apply IH; auto. cbn [length] in L; lia.
Qed.

(** ** One escaped character *)

Lemma lex_raw g c v rest :
  g_stop g c (hd_error rest) = false -> c <> 92%N ->
  g_pair g c (hd_error rest) = false -> g_raw g c = Some v ->
  lex g MText (c :: rest) = emit v (lex g MText rest).
Proof.
  intros H1 H2 H3 H4. cbn [lex]. rewrite H1, H3, H4.
  apply N.eqb_neq in H2. rewrite H2. reflexivity.
Qed.

Lemma lex_simple g x v rest :
  g_stop g 92 (Some x) = false ->
  g_braced g x = None -> g_number g x = None ->
  g_simple g x (hd_error rest) = Some v ->
  lex g MText (92%N :: x :: rest) = emit v (lex g MText rest).
Proof.
  intros H1 H2 H3 H4. cbn [lex hd_error]. rewrite H1. cbn. rewrite H2, H3, H4. reflexivity.
Qed.

Lemma lex_hex_pad g x e k n rest :
  g_stop g 92 (Some x) = false ->
  g_number g x = Some e ->
  (n < 16 ^ N.of_nat (S k))%N ->
  (forall i, 0 < i < S k -> n_more e i = true) -> n_min e <= S k ->
  n_more e (S k) && is_hex (hd_error rest) = false ->
  lex g MText (92%N :: x :: hex_pad (S k) n ++ rest) =
  emit_opt (n_value e n) (lex g MText rest).
Proof.
  intros H1 H3 Hn M Mi St. cbn [lex hd_error]. rewrite H1.
  pose proof (hex_pad_length n k Hn) as L.
  destruct (hex_pad_as_digits (S k) n) as [ds [E [F [NE V]]]].
  rewrite E in *. rewrite map_length in L.
  assert (X : next_is 123 (hd_error (map hex_char ds ++ rest)) = false).
  { destruct ds as [|d ds]; [congruence|]. inversion F as [|? ? Hd]; subst. cbn.
    pose proof (hex_char_range d Hd). lia. }
  rewrite X.
  replace (N.eqb 92 92) with true by reflexivity.
  assert (R : lex g (MNumber e 0 0) (map hex_char ds ++ rest) =
              emit_opt (n_value e n) (lex g MText rest)).
  { rewrite lex_number; auto; rewrite ?L; auto.
    unfold digits_value in V. rewrite V. reflexivity. }
  destruct (g_braced g x); rewrite ?H3; exact R.
Qed.

Lemma lex_brace g x e s n rest ds :
  g_stop g 92 (Some x) = false ->
  g_braced g x = Some e ->
  s = map hex_char ds -> Forall (fun d => (d < 16)%N) ds -> ds <> [] ->
  digits_value 16 ds = n -> length s <= b_max e ->
  lex g MText (92%N :: x :: 123%N :: s ++ 125%N :: rest) =
  emit_opt (b_value e n) (lex g MText rest).
Proof.
  intros H1 H2 -> F NE V L. cbn [lex hd_error]. rewrite H1.
  replace (N.eqb 92 92) with true by reflexivity. rewrite H2. cbn [next_is].
  rewrite N.eqb_refl.
  rewrite lex_braced; auto.
  - unfold digits_value in V. rewrite V. auto.
  - rewrite map_length in L. destruct ds; [congruence|]. cbn [length] in *. lia.
Qed.

(** ** Whole texts *)

(** Each character is read back, given the character that follows. *)
Lemma lex_text g (f v : N -> list N) (ok : N -> str -> Prop) s : forall rest,
  (forall c rest, ok c rest -> lex g MText (f c ++ rest) = emit (v c) (lex g MText rest)) ->
  (forall p c q, s = p ++ c :: q -> ok c (flat_map f q ++ rest)) ->
  lex g MText (flat_map f s ++ rest) = emit (flat_map v s) (lex g MText rest).
Proof.
  induction s as [|c s IH]; intros rest St Hs; cbn [flat_map app].
  - symmetry; apply emit_nil.
  - rewrite <- app_assoc, St by (apply (Hs [] c s); auto).
    rewrite IH; auto; [rewrite emit_emit; auto|].
    intros p x q ->. apply (Hs (c :: p)). auto.
Qed.

Lemma read_quoted g (body : str) v rest :
  g_stop g 34 (hd_error rest) = true ->
  (forall rest', rest' = 34%N :: rest -> lex g MText (body ++ rest') = emit v (lex g MText rest')) ->
  read_literal g (34%N :: body ++ 34%N :: rest) = Some (v, rest).
Proof.
  intros S H. cbn [read_literal]. rewrite N.eqb_refl. rewrite H by auto.
  cbn [lex]. rewrite S. cbn [emit]. rewrite N.eqb_refl, app_nil_r. reflexivity.
Qed.

(** ** UTF-16 *)

Lemma utf16_first c l s : scalar c -> utf16_decodes l s ->
  utf16_decodes (utf16_units c ++ l) (c :: s).
Proof.
  intros H D. unfold utf16_units. destruct (N.ltb_spec c 65536); cbn [app].
  - constructor; auto. destruct H; lia.
  - assert (C : (c < 1114112)%N) by (destruct H; lia).
    replace c with (65536 + ((55296 + (c - 65536) / 1024) - 55296) * 1024 +
                    ((56320 + (c - 65536) mod 1024) - 56320))%N at 3.
    + constructor; auto; [|pose proof (N.mod_upper_bound (c - 65536) 1024); lia].
      assert ((c - 65536) / 1024 < 1024)%N by (apply N.div_lt_upper_bound; lia). lia.
    + pose proof (N.div_mod (c - 65536) 1024). lia.
Qed.
Lemma utf16_ok s : valid s -> utf16_decodes (flat_map utf16_units s) s.
Proof.
  induction 1 as [|c s Hc Hs IH]; cbn; [constructor|]. apply utf16_first; auto.
Qed.
