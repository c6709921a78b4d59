(** * Lemmas: the characters of quoted strings, and where literals end. *)
From Verif Require Import Str SpecStr StrFacts Quote SpecLex LexFacts QuoteFacts.
From Coq Require Import ZifyBool ZifyNat ZifyN.

Definition plain_char (c : N) : Prop := printable c /\ c <> 34%N /\ c <> 92%N.

(** A character standing for itself, or escapes. *)
Inductive quoted_form (raw : N -> Prop) : str -> Prop :=
| qf_raw c : raw c -> c <> 34%N -> c <> 92%N -> quoted_form raw [c]
| qf_esc x w : printable x -> Forall plain_char w -> quoted_form raw (92%N :: x :: w)
| qf_nil : quoted_form raw []
| qf_app a b : quoted_form raw a -> quoted_form raw b -> quoted_form raw (a ++ b).

Lemma after_plain w r : Forall plain_char w -> after_literal false (w ++ r) = after_literal false r.
Proof.
  induction 1 as [|c w [H [H1 H2]] F IH]; auto. cbn [app after_literal].
  rewrite (proj2 (N.eqb_neq c 34)), (proj2 (N.eqb_neq c 92)) by auto. auto.
Qed.
Lemma form_after raw w : quoted_form raw w -> forall r,
  after_literal false (w ++ r) = after_literal false r.
Proof.
  induction 1 as [c H H1 H2|x w H F| |a b Ha IHa Hb IHb]; intros r.
  - cbn [app after_literal].
    rewrite (proj2 (N.eqb_neq c 34)), (proj2 (N.eqb_neq c 92)) by auto. auto.
  - cbn [app after_literal]. apply after_plain; auto.
  - auto.
  - rewrite <- app_assoc, IHa, IHb. auto.
Qed.
Lemma form_chars (raw P : N -> Prop) w : (forall c, raw c -> P c) -> (forall c, printable c -> P c) ->
  quoted_form raw w -> Forall P w.
Proof.
  intros H1 H2. induction 1 as [c H ? ?|x w H F| |a b Ha IHa Hb IHb].
  - auto.
  - constructor; [apply H2; unfold printable; lia|]. constructor; auto.
    eapply Forall_impl; [|exact F]. intros c [Hc _]; auto.
  - auto.
  - apply Forall_app; auto.
Qed.
Lemma form_flat_map raw f s : (forall c, scalar c -> quoted_form raw (f c)) ->
  valid s -> quoted_form raw (flat_map f s).
Proof.
  intros H. induction 1; cbn [flat_map]; [apply qf_nil|]. apply qf_app; auto.
Qed.

Lemma hex_chars_plain ds : Forall (fun d => (d < 16)%N) ds -> Forall plain_char (map hex_char ds).
Proof.
  induction 1 as [|d ds Hd F IH]; cbn [map]; auto. constructor; auto.
  pose proof (hex_char_range d Hd). unfold plain_char, printable. lia.
Qed.
Lemma hex_plain n : Forall plain_char (hex n).
Proof. destruct (hex_as_digits n) as [ds [-> [F _]]]. apply hex_chars_plain; auto. Qed.
Lemma hex_pad_plain w n : Forall plain_char (hex_pad w n).
Proof. destruct (hex_pad_as_digits w n) as [ds [-> [F _]]]. apply hex_chars_plain; auto. Qed.

Definition no_control (c : N) : Prop := ~ (c < 32 \/ 127 <= c < 160)%N.

Ltac esc_named :=
  repeat match goal with
  | |- quoted_form _ (if N.eqb ?c ?k then _ else _) =>
      destruct (N.eqb_spec c k) as [->|?];
        [first [ apply (qf_esc _ _ []); [unfold printable; cbn; lia|constructor]
               | apply qf_raw; unfold printable, no_control; lia ]|]
  end.
Ltac plain_list :=
  apply Forall_app; split; [|apply Forall_app; split; [solve [auto using hex_plain, hex_pad_plain]|]];
  (constructor; [unfold plain_char, printable; cbn; lia|constructor]).

Lemma utf16_form raw c : quoted_form raw (utf16_escapes c).
Proof.
  unfold utf16_escapes. induction (utf16_char c) as [|u us IH]; cbn [flat_map]; [apply qf_nil|].
  apply qf_app; auto.
  apply (qf_esc raw 117 (hex_pad 4 u)); [unfold printable; lia|apply hex_pad_plain].
Qed.
Lemma c_family_form c : scalar c -> quoted_form printable (c_family_char c).
Proof.
  intros Hc. unfold c_family_char. esc_named. unfold is_ascii.
  destruct (N.ltb_spec c 128).
  - destruct (is_control c) eqn:Ct; cbn [negb].
    + apply (qf_esc _ 120 (hex_pad 2 c)); [unfold printable; lia|apply hex_pad_plain].
    + apply not_control in Ct. apply qf_raw; unfold printable; lia.
  - destruct (N.ltb_spec c 65536).
    + apply (qf_esc _ 117 (hex_pad 4 c)); [unfold printable; lia|apply hex_pad_plain].
    + apply (qf_esc _ 85 (hex_pad 8 c)); [unfold printable; lia|apply hex_pad_plain].
Qed.
Lemma java_form c : scalar c -> quoted_form printable (java_char c).
Proof.
  intros Hc. unfold java_char. esc_named. unfold is_ascii.
  destruct ((c <? 128)%N && negb (is_control c)) eqn:Ct.
  - apply andb_true_iff in Ct as [A Ct]. apply negb_true_iff, not_control in Ct.
    apply qf_raw; unfold printable; lia.
  - apply utf16_form.
Qed.
Lemma rust_form c : scalar c -> quoted_form no_control (rust_char c).
Proof.
  intros Hc. unfold rust_char. esc_named.
  destruct (is_control c) eqn:Ct; cbn [negb].
  - destruct (N.ltb_spec c 128).
    + apply (qf_esc _ 120 (hex_pad 2 c)); [unfold printable; lia|apply hex_pad_plain].
    + apply (qf_esc _ 117 ($"{" ++ hex_pad 4 c ++ $"}")); [unfold printable; lia|plain_list].
  - apply not_control in Ct. apply qf_raw; unfold no_control; lia.
Qed.
Lemma swift_form c : scalar c -> quoted_form no_control (swift_char c).
Proof.
  intros Hc. unfold swift_char. esc_named.
  destruct (is_control c) eqn:Ct; cbn [negb].
  - apply (qf_esc _ 117 ($"{" ++ hex c ++ $"}")); [unfold printable; lia|plain_list].
  - apply not_control in Ct. apply qf_raw; unfold no_control; lia.
Qed.
Lemma js_form c : scalar c -> quoted_form no_control (js_char c).
Proof.
  intros Hc. unfold js_char. esc_named.
  destruct (is_control c) eqn:Ct; cbn [negb].
  - destruct (N.ltb_spec c 256).
    + apply (qf_esc _ 120 (hex_pad 2 c)); [unfold printable; lia|apply hex_pad_plain].
    + apply (qf_esc _ 117 ($"{" ++ hex c ++ $"}")); [unfold printable; lia|plain_list].
  - apply not_control in Ct. apply qf_raw; unfold no_control; lia.
Qed.
Lemma dart_form c : scalar c -> quoted_form no_control (dart_char c).
Proof.
  intros Hc. unfold dart_char. esc_named.
  destruct (is_control c) eqn:Ct; cbn [negb].
  - destruct (N.ltb_spec c 256).
    + apply (qf_esc _ 120 (hex_pad 2 c)); [unfold printable; lia|apply hex_pad_plain].
    + apply utf16_form.
  - apply not_control in Ct. apply qf_raw; unfold no_control; lia.
Qed.
