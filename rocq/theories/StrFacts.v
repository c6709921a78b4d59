(** * Lemmas about text and numbers. *)
From Verif Require Import Str SpecStr.
From Coq Require Import ZifyBool ZifyNat ZifyN.
Ltac Zify.zify_post_hook ::= Z.div_mod_to_equations.

(** ** Correctness of the printers *)

Lemma to_base_value b : (2 <= b)%N -> forall fuel n acc,
  (n < b ^ N.of_nat fuel)%N -> fuel <> 0 ->
  forall a0, a0 = 0%N ->
  fold_left (fun a d => (a * b + d)%N) (to_base b fuel n acc) a0 =
  fold_left (fun a d => (a * b + d)%N) acc n.
Proof.
  intros Hb fuel; induction fuel as [|f IH]; intros n acc Hn Hf a0 ->; [congruence|].
  cbn [to_base]. destruct (N.ltb_spec n b).
  - cbn [fold_left]. reflexivity.
  - assert (f <> 0). { intros ->. change (N.of_nat 1) with 1%N in Hn. rewrite N.pow_1_r in Hn. lia. }
    rewrite IH; auto.
    + cbn [fold_left]. f_equal. rewrite (N.mul_comm (n / b)). symmetry. apply N.div_mod. lia.
    + replace (N.of_nat (S f)) with (N.succ (N.of_nat f)) in Hn by lia.
      rewrite N.pow_succ_r' in Hn. apply N.div_lt_upper_bound; lia.
Qed.

Lemma to_base_digits b : (2 <= b)%N -> forall fuel n acc,
  Forall (fun d => (d < b)%N) acc ->
  Forall (fun d => (d < b)%N) (to_base b fuel n acc).
Proof.
  intros Hb fuel; induction fuel as [|f IH]; intros n acc Ha; cbn [to_base]; auto.
  destruct (N.ltb_spec n b); auto. apply IH. constructor; auto.
  apply N.mod_upper_bound; lia.
Qed.

Lemma to_base_nonempty b fuel : forall n acc,
  fuel <> 0 -> to_base b fuel n acc <> [].
Proof.
  induction fuel as [|f IH]; intros n acc H; [congruence|]. cbn [to_base].
  destruct (n <? b)%N; [discriminate|]. destruct f; [cbn; discriminate|].
  apply IH; discriminate.
Qed.

Lemma to_base_length b : (2 <= b)%N -> forall fuel n acc k,
  (n < b ^ N.of_nat (S k))%N ->
  length (to_base b fuel n acc) <= S k + length acc.
Proof.
  intros Hb fuel; induction fuel as [|f IH]; intros n acc k Hn; cbn [to_base]; [lia|].
  destruct (N.ltb_spec n b); cbn [length]; [lia|].
  destruct k as [|k].
  { change (N.of_nat 1) with 1%N in Hn. rewrite N.pow_1_r in Hn. lia. }
  specialize (IH (n / b)%N ((n mod b)%N :: acc) k).
  cbn [length] in IH. 
  assert ((n / b < b ^ N.of_nat (S k))%N).
  { replace (N.of_nat (S (S k))) with (N.succ (N.of_nat (S k))) in Hn by lia.
    rewrite N.pow_succ_r' in Hn. apply N.div_lt_upper_bound; lia. }
  specialize (IH H0). lia.
Qed.

Lemma size_bound b n : (2 <= b)%N -> (n < b ^ N.of_nat (S (N.size_nat n)))%N.
Proof.
  intros Hb. 
  assert (H : (n < 2 ^ N.of_nat (N.size_nat n))%N).
  { destruct n as [|p]; [cbn; lia|].
    cbn [N.size_nat]. clear Hb b.
    induction p as [p IH|p IH|]; cbn [Pos.size_nat].
    - replace (N.of_nat (S (Pos.size_nat p))) with (N.succ (N.of_nat (Pos.size_nat p))) by lia.
      rewrite N.pow_succ_r'. lia.
    - replace (N.of_nat (S (Pos.size_nat p))) with (N.succ (N.of_nat (Pos.size_nat p))) by lia.
      rewrite N.pow_succ_r'. lia.
    - cbn. lia. }
  replace (N.of_nat (S (N.size_nat n))) with (N.succ (N.of_nat (N.size_nat n))) by lia.
  rewrite N.pow_succ_r'.
  assert (2 ^ N.of_nat (N.size_nat n) <= b ^ N.of_nat (N.size_nat n))%N
    by (apply N.pow_le_mono_l; auto).
  nia.
Qed.

Lemma read_digits_map digit (f : N -> N) b ds :
  (forall d, (d < b)%N -> digit (f d) = Some d) ->
  Forall (fun d => (d < b)%N) ds ->
  read_digits digit (map f ds) = Some ds.
Proof.
  intros H F; induction F as [|d ds Hd F IH]; cbn; auto.
  rewrite H, IH; auto.
Qed.

Lemma dec_digit_ok d : (d < 10)%N -> dec_digit (48 + d) = Some d.
Proof.
  intros H. unfold dec_digit.
  replace ((48 <=? 48 + d) && (48 + d <=? 57))%N with true by lia.
  f_equal; lia.
Qed.
Lemma hex_digit_ok d : (d < 16)%N -> hex_digit (hex_char d) = Some d.
Proof.
  intros H. unfold hex_digit, hex_char.
  destruct (N.ltb_spec d 10).
  - replace ((48 <=? 48 + d) && (48 + d <=? 57))%N with true by lia. f_equal; lia.
  - replace ((48 <=? 87 + d) && (87 + d <=? 57))%N with false by lia.
    replace ((97 <=? 87 + d) && (87 + d <=? 102))%N with true by lia. f_equal; lia.
Qed.

Lemma dec_read n : read_dec (dec n) = Some n.
Proof.
  unfold read_dec, dec.
  assert (F : Forall (fun d => (d < 10)%N) (to_base 10 (S (N.size_nat n)) n []))
    by (apply to_base_digits; auto; lia).
  rewrite (read_digits_map _ _ 10) by (auto using dec_digit_ok).
  cbn [option_map]. unfold digits_value.
  rewrite to_base_value; auto; [|lia|apply size_bound; lia]. cbn [fold_left].
  pose proof (to_base_nonempty 10 (S (N.size_nat n)) n [] ltac:(discriminate)).
  destruct (to_base 10 (S (N.size_nat n)) n []); cbn; congruence.
Qed.

Lemma dec_head n c s : dec n = c :: s -> c <> 45%N.
Proof.
  unfold dec.
  assert (F : Forall (fun d => (d < 10)%N) (to_base 10 (S (N.size_nat n)) n []))
    by (apply to_base_digits; auto; lia).
  destruct (to_base 10 (S (N.size_nat n)) n []) as [|d ds]; [discriminate|].
  intros H. apply (f_equal (hd 0%N)) in H. cbn [map hd] in H. lia.
Qed.

Lemma dec_z_read z : read_int (dec_z z) = Some z.
Proof.
  assert (P : forall n, read_int (dec n) = Some (Z.of_N n)).
  { intros n. pose proof (dec_read n) as R. pose proof (dec_head n) as D.
    unfold read_int. destruct (dec n) as [|c s]; [discriminate|].
    specialize (D c s eq_refl). rewrite R.
    destruct c as [|p]; auto. do 6 (destruct p as [p|p|]; auto). congruence. }
  destruct z as [|p|p]; cbn [dec_z].
  - apply P.
  - rewrite P; auto.
  - cbn [read_int]. rewrite dec_read. reflexivity.
Qed.

Lemma hex_digits n : read_digits hex_digit (hex n) =
  Some (to_base 16 (S (N.size_nat n)) n []).
Proof.
  unfold hex. apply (read_digits_map _ _ 16); auto using hex_digit_ok.
  apply to_base_digits; auto; lia.
Qed.

Lemma hex_read n : read_hex (hex n) = Some n.
Proof.
  unfold read_hex. rewrite hex_digits. cbn [option_map]. unfold digits_value.
  rewrite to_base_value; auto; [|lia|apply size_bound; lia].
  pose proof (to_base_nonempty 16 (S (N.size_nat n)) n [] ltac:(discriminate)).
  unfold hex. destruct (to_base 16 (S (N.size_nat n)) n []); cbn; congruence.
Qed.

Lemma hex_length n k : (n < 16 ^ N.of_nat (S k))%N -> length (hex n) <= S k.
Proof.
  intros H. unfold hex. rewrite map_length.
  pose proof (to_base_length 16 ltac:(lia) (S (N.size_nat n)) n [] k H). cbn [length] in *. lia.
Qed.

Lemma hex_nonempty n : hex n <> [].
Proof.
  unfold hex. intros H. apply map_eq_nil in H. eapply to_base_nonempty in H; eauto.
Qed.

Lemma hex_chars n : Forall (fun c => exists d, (d < 16)%N /\ c = hex_char d) (hex n).
Proof.
  unfold hex.
  assert (F : Forall (fun d => (d < 16)%N) (to_base 16 (S (N.size_nat n)) n []))
    by (apply to_base_digits; auto; lia).
  induction F as [|d ds Hd F IH]; cbn; constructor; eauto.
Qed.

Lemma hex_pad_length n k : (n < 16 ^ N.of_nat (S k))%N -> length (hex_pad (S k) n) = S k.
Proof.
  intros H. unfold hex_pad, zero_pad. rewrite app_length, repeat_length.
  pose proof (hex_length n k H). lia.
Qed.

Lemma hex_pad_chars w n :
  Forall (fun c => exists d, (d < 16)%N /\ c = hex_char d) (hex_pad w n).
Proof.
  unfold hex_pad, zero_pad. apply Forall_app; split; [|apply hex_chars].
  apply Forall_forall. intros c Hc. apply repeat_spec in Hc as ->.
  exists 0%N. split; [lia|reflexivity].
Qed.

Lemma read_digits_app digit a b :
  read_digits digit (a ++ b) =
  match read_digits digit a, read_digits digit b with
  | Some x, Some y => Some (x ++ y)
  | _, _ => None
  end.
Proof.
  induction a as [|c a IH]; cbn; [destruct (read_digits digit b); auto|].
  rewrite IH. destruct (digit c); [|auto].
  destruct (read_digits digit a), (read_digits digit b); auto.
Qed.

Lemma hex_pad_read w n : read_hex (hex_pad w n) = Some n.
Proof.
  unfold hex_pad, zero_pad.
  assert (Z : forall k, read_digits hex_digit (repeat 48%N k) = Some (repeat 0%N k))
    by (induction k as [|k IH]; cbn; rewrite ?IH; auto).
  assert (V : forall k a, fold_left (fun a d => (a * 16 + d)%N) (repeat 0%N k) a = (a * 16 ^ N.of_nat k)%N).
  { induction k as [|k IH]; intros a; cbn [repeat fold_left]; [cbn; lia|].
    rewrite IH. replace (N.of_nat (S k)) with (N.succ (N.of_nat k)) by lia.
    rewrite N.pow_succ_r'. lia. }
  pose proof (hex_read n) as R. unfold read_hex in *.
  destruct (repeat 48%N (w - length (hex n)) ++ hex n) as [|c s] eqn:E.
  { apply app_eq_nil in E as [_ E]. apply hex_nonempty in E; tauto. }
  rewrite <- E. rewrite read_digits_app, Z.
  destruct (hex n) as [|c' s'] eqn:E'; [discriminate|].
  destruct (read_digits hex_digit (c' :: s')) as [ds|]; [|discriminate].
  cbn [option_map] in *. unfold digits_value in *.
  rewrite fold_left_app, V, N.mul_0_l. auto.
Qed.

(** ** Comparison *)

Lemma str_cmp_refl a : str_cmp a a = Eq.
Proof. induction a; cbn; auto. rewrite N.compare_refl; auto. Qed.
Lemma str_cmp_eq a b : str_cmp a b = Eq <-> a = b.
Proof.
  split; [|intros ->; apply str_cmp_refl].
  revert b; induction a as [|x a IH]; intros [|y b]; cbn; try discriminate; auto.
  destruct (N.compare_spec x y); try discriminate. intros H1; f_equal; auto.
Qed.
Lemma str_cmp_antisym a b : str_cmp b a = CompOpp (str_cmp a b).
Proof.
  revert b; induction a as [|x a IH]; intros [|y b]; cbn; auto.
  rewrite N.compare_antisym. destruct (N.compare x y); cbn; auto.
Qed.
Lemma str_cmp_trans a b c : str_cmp a b = Lt -> str_cmp b c = Lt -> str_cmp a c = Lt.
Proof.
  revert b c; induction a as [|x a IH]; intros [|y b] [|z c]; cbn; try discriminate; auto.
  destruct (N.compare_spec x y); try discriminate;
    destruct (N.compare_spec y z); try discriminate; intros; subst.
  - rewrite N.compare_refl. eauto.
  - assert (E : N.compare y z = Lt) by (apply N.compare_lt_iff; lia). rewrite E; auto.
  - assert (E : N.compare x z = Lt) by (apply N.compare_lt_iff; lia). rewrite E; auto.
  - assert (E : N.compare x z = Lt) by (apply N.compare_lt_iff; lia). rewrite E; auto.
Qed.
Lemma str_eqb_eq a b : str_eqb a b = true <-> a = b.
Proof.
  unfold str_eqb. rewrite <- str_cmp_eq. destruct (str_cmp a b); split; congruence.
Qed.

(** ** UTF-8 *)

Lemma cont_ok x : (x < 64)%N -> cont (128 + x) = Some x.
Proof.
  intros H. unfold cont.
  replace ((128 <=? 128 + x) && (128 + x <? 192))%N with true by lia. f_equal; lia.
Qed.

Lemma checked_ok least c l : scalar c -> (least <= c)%N -> checked least c l = Some (c, l).
Proof.
  intros H L. unfold checked, scalarb. unfold scalar in H.
  match goal with |- (if ?b then _ else _) = _ => replace b with true by lia end. reflexivity.
Qed.
Lemma utf8_first_ok c l : scalar c -> utf8_first (utf8_char c ++ l) = Some (c, l).
Proof.
  intros H. unfold utf8_char.
  assert (C : (c < 1114112)%N) by (destruct H; lia).
  destruct (N.ltb_spec c 128); [|destruct (N.ltb_spec c 2048);
    [|destruct (N.ltb_spec c 65536)]]; cbn [app utf8_first].
  - replace (c <? 128)%N with true by lia. auto.
  - replace (192 + c / 64 <? 128)%N with false by lia.
    replace ((192 <=? 192 + c / 64) && (192 + c / 64 <? 224))%N with true by lia.
    rewrite cont_ok by lia. replace ((192 + c / 64 - 192) * 64 + c mod 64)%N with c by lia. apply checked_ok; [exact H|lia].
  - replace (224 + c / 4096 <? 128)%N with false by lia.
    replace ((192 <=? 224 + c / 4096) && (224 + c / 4096 <? 224))%N with false by lia.
    replace ((224 <=? 224 + c / 4096) && (224 + c / 4096 <? 240))%N with true by lia.
    rewrite !cont_ok by lia. replace ((224 + c / 4096 - 224) * 4096 + (c / 64) mod 64 * 64 + c mod 64)%N with c by lia. apply checked_ok; [exact H|lia].
  - replace (240 + c / 262144 <? 128)%N with false by lia.
    replace ((192 <=? 240 + c / 262144) && (240 + c / 262144 <? 224))%N with false by lia.
    replace ((224 <=? 240 + c / 262144) && (240 + c / 262144 <? 240))%N with false by lia.
    replace ((240 <=? 240 + c / 262144) && (240 + c / 262144 <? 248))%N with true by lia.
    rewrite !cont_ok by lia. replace ((240 + c / 262144 - 240) * 262144 + (c / 4096) mod 64 * 4096 + (c / 64) mod 64 * 64 + c mod 64)%N with c by lia. apply checked_ok; [exact H|lia].
Qed.

Lemma utf8_ok s : valid s -> utf8_decodes (utf8 s) s.
Proof.
  induction 1 as [|c s Hc Hs IH]; cbn; [constructor|].
  econstructor; [apply utf8_first_ok; auto|auto].
Qed.

Lemma utf8_app a b : utf8 (a ++ b) = utf8 a ++ utf8 b.
Proof. apply flat_map_app. Qed.
