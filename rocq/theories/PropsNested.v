(** * Quoting what is already quoted, exactly (C34).

    In every language the literal of a value that is quoted twice denotes the source
    of the literal of the value quoted once exactly if nothing in the value needs to
    be escaped.  Vocabulary and model: as in [PropsQuote.v]. *)
From Verif Require Import Str SpecStr StrFacts Quote SpecLex LexFacts QuoteFacts Tokens Values Fmt SpecFmt
  LangBase LangC LangCsharp LangDart LangGo LangJava LangJs LangNix LangPython LangRust LangSwift OutputFacts StringFacts PropsQuote ExactFacts PropsExact.
From Coq Require Import ZifyBool ZifyNat ZifyN.

(** [outer] is the literal of [s] quoted twice, [inner] that of [s] quoted once;
    [reads src v] says that the literal [src] denotes the text [v]. *)
Definition nested_exactly {LI CFG FMT} (L : lang_def LI CFG FMT) (reads : str -> str -> Prop) (unescaped : N -> Prop) (s : str) : Prop :=
  exists inner outer, to_string L (quoted_string s) = Some inner /\ to_string L (twice_quoted_string s) = Some outer /\
    (reads outer inner <-> Forall unescaped s).

(** What each language writes as it is. *)
Definition plain_wide (c : N) : Prop := not_control_char c /\ ~ In c [34; 92]%N.
Definition plain_swift (c : N) : Prop := not_control_char c /\ ~ In c [34; 39; 92]%N.
Definition plain_dart (c : N) : Prop := not_control_char c /\ ~ In c [34; 36; 92]%N.
Definition plain_ascii (c : N) : Prop := printable c /\ ~ In c [34; 39; 92]%N.

(** What the literals denote. *)
Definition reads_units (g : grammar) (src v : str) : Prop := exists units, denotes g src units /\ utf16_decodes units v.
Definition reads_bytes (g : grammar) (src v : str) : Prop := exists bytes, denotes g src bytes /\ utf8_decodes bytes v.
Definition reads_java (src v : str) : Prop := exists units, java_denotes src units /\ utf16_decodes units v.

Lemma denotes_unique g src a b : denotes g src a -> denotes g src b -> a = b.
Proof. intros A B. specialize (A []). specialize (B []). congruence. Qed.
Lemma units_unique u s t : utf16_decodes u s -> utf16_decodes u t -> s = t.
Proof.
  intros H. revert t. induction H as [|c l s R D IH|h w l s R1 R2 D IH]; intros t T.
  - destruct t; [reflexivity|]. inversion T.
  - destruct t as [|d t]; [inversion T|]. destruct (utf16_inv _ _ T _ _ _ _ eq_refl eq_refl) as [[_ [-> T']]|[w [r [R' _]]]]; [|lia]. f_equal. apply IH, T'.
  - destruct t as [|d t]; [inversion T|]. destruct (utf16_inv _ _ T _ _ _ _ eq_refl eq_refl) as [[R' _]|[w' [r [_ [_ [E [E' T']]]]]]]; [lia|]. apply cons_eq in E as [-> ->]. f_equal; [exact E'|]. apply IH, T'.
Qed.
Lemma bytes_unique u s : utf8_decodes u s -> forall t, utf8_decodes u t -> s = t.
Proof.
  induction 1 as [|l c l' s F D IH]; intros t T.
  - inversion T as [|l c l' s F]; [reflexivity|]. discriminate F.
  - inversion T as [|l2 c2 l2' s2 F2 D2]; subst; [discriminate F|]. rewrite F in F2. injection F2 as <- <-. f_equal. apply IH, D2.
Qed.
Lemma reads_units_unique g src a b : reads_units g src a -> reads_units g src b -> a = b.
Proof. intros (u & D & U) (u' & D' & U'). rewrite (denotes_unique _ _ _ _ D' D) in U'. eapply units_unique; eauto. Qed.
Lemma reads_bytes_unique g src a b : reads_bytes g src a -> reads_bytes g src b -> a = b.
Proof. intros (u & D & U) (u' & D' & U'). rewrite (denotes_unique _ _ _ _ D' D) in U'. eapply bytes_unique; eauto. Qed.
Lemma reads_java_unique src a b : reads_java src a -> reads_java src b -> a = b.
Proof.
  intros (u & D & U) (u' & D' & U'). destruct (D [] [] eq_refl) as [x [T R]]. destruct (D' [] [] eq_refl) as [x' [T' R']]. rewrite T in T'. injection T' as <-. rewrite R in R'. injection R' as <-.
  eapply units_unique; eauto.
Qed.

(** Escaping makes a text longer. *)
Lemma longer (f : N -> str) s : (forall c, f c = [c] \/ 2 <= length (f c)) ->
  length s <= length (flat_map f s) /\ (length (flat_map f s) = length s -> Forall (fun c => f c = [c]) s).
Proof.
  intros H. induction s as [|c s [IH1 IH2]]; [split; [auto|constructor]|]. cbn [flat_map]. rewrite app_length. cbn [length]. destruct (H c) as [E|E].
  - rewrite E. cbn [length]. split; [lia|]. intros L. constructor; [exact E|]. apply IH2. lia.
  - split; [lia|]. lia.
Qed.
Lemma same_text (f : N -> str) s : Forall (fun c => f c = [c]) s -> flat_map f s = s.
Proof. induction 1 as [|c s C F IH]; [reflexivity|]. cbn [flat_map]. rewrite C, IH. reflexivity. Qed.
Lemma nested {LI CFG FMT} (L : lang_def LI CFG FMT) (f : N -> str) (reads : str -> str -> Prop) (unescaped : N -> Prop) s v :
  plain_quotes L -> (forall s, l_write_quoted (ld_ops L (ld_default_config L) (ld_default_format L)) s = map f s) ->
  (forall c, (f c = [c] <-> unescaped c) /\ (f c = [c] \/ 2 <= length (f c))) ->
  (forall src a b, reads src a -> reads src b -> a = b) ->
  (forall src, to_string L (quoted_string (34%N :: s ++ [34%N])) = Some src -> reads src v) ->
  length v = S (S (length s)) -> (Forall unescaped s -> v = 34%N :: s ++ [34%N]) ->
  nested_exactly L reads unescaped s.
Proof.
  intros [P1 P2] W C U R LV V. exists (34%N :: flat_map f s ++ [34%N]).
  destruct (C34_twice _ _ _ L s (conj P1 P2)) as [E _].
  exists (34%N :: flat_map f (34%N :: s ++ [34%N]) ++ [34%N]).
  pose proof (literal_source L f s P1 P2 W) as E1. pose proof (literal_source L f (34%N :: s ++ [34%N]) P1 P2 W) as E2.
  split; [exact E1|]. split; [rewrite E; exact E2|]. specialize (R _ E2).
  assert (F : Forall (fun c => f c = [c]) s <-> Forall unescaped s) by (split; apply Forall_impl; intros c; apply C).
  split.
  - intros Q. apply F. apply (longer f s); [intros c; apply C|]. pose proof (U _ _ _ Q R) as Q'. apply (f_equal (@length N)) in Q'. cbn [length] in Q'. rewrite app_length in Q'. cbn [length] in Q'. lia.
  - intros Q. apply F in Q as Q'. rewrite (same_text f s Q'). rewrite (V Q) in R. exact R.
Qed.

(** Escapes have at least two characters. *)
Lemma as_written (x : str) c (P : Prop) : (x = [c] /\ P) \/ (2 <= length x /\ ~ P) -> (x = [c] <-> P) /\ (x = [c] \/ 2 <= length x).
Proof.
  intros [[E H]|[E H]]; [tauto|]. split; [|auto]. split; [intros ->; cbn in E; lia|contradiction].
Qed.
Ltac chars :=
  apply as_written;
  repeat match goal with |- context [N.eqb ?c ?k] => destruct (N.eqb_spec c k); [subst; first [right; split; [cbn; lia|cbn [In]; lia]|left; split; [reflexivity|cbn [In]; lia]]|] end.
Lemma esc_long s t : s <> [] -> 2 <= length (esc s ++ t).
Proof. destruct s; [congruence|]. intros _. cbn [esc app length]. lia. Qed.
Lemma utf16_long c : 2 <= length (utf16_escapes c).
Proof. unfold utf16_escapes, utf16_char. destruct (_ <? _)%N; cbn [flat_map]; rewrite <- app_assoc; apply esc_long; discriminate. Qed.
Lemma rust_written c : (rust_char c = [c] <-> plain_wide c) /\ (rust_char c = [c] \/ 2 <= length (rust_char c)).
Proof.
  unfold rust_char, plain_wide, not_control_char. chars. unfold is_control.
  destruct (_ || _)%N eqn:B; cbn [negb]; [right|left; split; [reflexivity|cbn [In]; lia]]. destruct (c <? 128)%N; (split; [apply esc_long; discriminate|lia]).
Qed.
Lemma js_written c : (js_char c = [c] <-> plain_wide c) /\ (js_char c = [c] \/ 2 <= length (js_char c)).
Proof.
  unfold js_char, plain_wide, not_control_char. chars. unfold is_control.
  destruct (_ || _)%N eqn:B; cbn [negb]; [right|left; split; [reflexivity|cbn [In]; lia]]. destruct (c <? 256)%N; (split; [apply esc_long; discriminate|lia]).
Qed.
Lemma swift_written c : (swift_char c = [c] <-> plain_swift c) /\ (swift_char c = [c] \/ 2 <= length (swift_char c)).
Proof.
  unfold swift_char, plain_swift, not_control_char. chars. unfold is_control.
  destruct (_ || _)%N eqn:B; cbn [negb]; [right|left; split; [reflexivity|cbn [In]; lia]]. split; [apply esc_long; discriminate|lia].
Qed.
Lemma dart_written c : (dart_char c = [c] <-> plain_dart c) /\ (dart_char c = [c] \/ 2 <= length (dart_char c)).
Proof.
  unfold dart_char, plain_dart, not_control_char. chars. unfold is_control.
  destruct (_ || _)%N eqn:B; cbn [negb]; [right|left; split; [reflexivity|cbn [In]; lia]]. destruct (c <? 256)%N; (split; [|lia]); [apply esc_long; discriminate|apply utf16_long].
Qed.
Lemma c_family_written c : (c_family_char c = [c] <-> plain_ascii c) /\ (c_family_char c = [c] \/ 2 <= length (c_family_char c)).
Proof.
  unfold c_family_char, plain_ascii, printable. chars. unfold is_control, is_ascii.
  destruct (c <? 128)%N eqn:A; [|right; destruct (c <? 65536)%N; (split; [apply esc_long; discriminate|lia])].
  destruct (_ || _)%N eqn:B; cbn [negb]; [right; split; [apply esc_long; discriminate|lia]|left; split; [reflexivity|cbn [In]; lia]].
Qed.
Lemma java_written c : (java_char c = [c] <-> plain_ascii c) /\ (java_char c = [c] \/ 2 <= length (java_char c)).
Proof.
  unfold java_char, plain_ascii, printable. chars. unfold is_control, is_ascii.
  destruct (_ && _)%N eqn:B; [left; split; [reflexivity|cbn [In]; lia]|right; split; [apply utf16_long|lia]].
Qed.

Lemma valid_between s : valid s -> valid (34%N :: s ++ [34%N]).
Proof. intros V. constructor; [unfold scalar; lia|]. apply Forall_app. split; [exact V|]. constructor; [unfold scalar; lia|constructor]. Qed.
Lemma between_length (f : N -> N) s : length (map f (34%N :: s ++ [34%N])) = S (S (length s)).
Proof. rewrite map_length. cbn [length]. rewrite app_length. cbn [length]. lia. Qed.
Lemma fix_between (unescaped : N -> Prop) s : (forall c, unescaped c -> c <> 17%N /\ c <> 18%N) -> Forall unescaped s -> map vf_fix (34%N :: s ++ [34%N]) = 34%N :: s ++ [34%N].
Proof.
  intros U F. apply fix_id; intros [E|E]; try discriminate; apply in_app_or in E as [E|[E|[]]]; try discriminate; rewrite Forall_forall in F; apply F, U in E; tauto.
Qed.

(** ** The languages *)
Theorem C34_rust : forall s, valid s -> nested_exactly rust_lang (denotes rust_grammar) plain_wide s.
Proof.
  intros s V. apply (nested rust_lang rust_char _ _ s (34%N :: s ++ [34%N])); [split; reflexivity|reflexivity|apply rust_written|intros; eapply denotes_unique; eauto| |cbn; rewrite app_length; cbn; lia|auto].
  intros src E. destruct (C22_rust_round_trip _ (valid_between s V)) as (src' & E' & D). rewrite E in E'. injection E' as <-. exact D.
Qed.
Print Assumptions C34_rust.
Theorem C34_swift : forall s, valid s -> nested_exactly swift_lang (denotes swift_grammar) plain_swift s.
Proof.
  intros s V. apply (nested swift_lang swift_char _ _ s (34%N :: s ++ [34%N])); [split; reflexivity|reflexivity|apply swift_written|intros; eapply denotes_unique; eauto| |cbn; rewrite app_length; cbn; lia|auto].
  intros src E. destruct (C23_swift_round_trip _ (valid_between s V)) as (src' & E' & D). rewrite E in E'. injection E' as <-. exact D.
Qed.
Print Assumptions C34_swift.
Theorem C34_java : forall s, valid s -> nested_exactly java_lang reads_java plain_ascii s.
Proof.
  intros s V. eapply (nested java_lang java_char); [split; reflexivity|reflexivity|apply java_written|apply reads_java_unique| |apply (between_length java_fix)|].
  - intros src E. destruct (C24_java_denotes _ (valid_between s V)) as (src' & u & E' & D & U). rewrite E in E'. injection E' as <-. exists u. split; [exact D|exact U].
  - intros F. rewrite <- (map_id (34%N :: s ++ [34%N])) at 2. apply map_ext_in. intros c [<-|C]; [reflexivity|]. apply in_app_or in C as [C|[<-|[]]]; [|reflexivity]. rewrite Forall_forall in F. apply F in C.
    unfold plain_ascii, printable in C. unfold java_fix. destruct (N.eqb_spec c 7); [lia|]. destruct (N.eqb_spec c 20); [lia|reflexivity].
Qed.
Print Assumptions C34_java.
Theorem C34_dart : forall s, valid s -> nested_exactly dart_lang (reads_units dart_grammar) plain_dart s.
Proof.
  intros s V. eapply (nested dart_lang dart_char); [split; reflexivity|reflexivity|apply dart_written|apply reads_units_unique| |apply (between_length vf_fix)|].
  - intros src E. destruct (C27_dart_denotes _ (valid_between s V)) as (src' & u & E' & D & U). rewrite E in E'. injection E' as <-. exists u. split; [exact D|exact U].
  - apply fix_between. unfold plain_dart, not_control_char. lia.
Qed.
Print Assumptions C34_dart.
Theorem C34_python : forall s, valid s -> nested_exactly python_lang (denotes python_grammar) plain_ascii s.
Proof.
  intros s V. eapply (nested python_lang c_family_char); [split; reflexivity|reflexivity|apply c_family_written|intros; eapply denotes_unique; eauto| |apply (between_length vf_fix)|].
  - intros src E. destruct (C28_python_denotes _ (valid_between s V)) as (src' & E' & D). rewrite E in E'. injection E' as <-. exact D.
  - apply fix_between. unfold plain_ascii, printable. lia.
Qed.
Print Assumptions C34_python.
(** A NUL before a digit is an illegal escape in the outer literal as well. *)
Lemma after_zero s p d q : 34%N :: s ++ [34%N] = p ++ 0%N :: d :: q -> d = 34%N \/ exists p' q', s = p' ++ 0%N :: d :: q'.
Proof.
  intros E. destruct p as [|x p]; [discriminate|]. injection E as _ E. destruct (@exists_last _ (d :: q)) as (l & y & L); [discriminate|]. rewrite L in E.
  change (p ++ 0%N :: l ++ [y]) with (p ++ (0%N :: l) ++ [y]) in E. rewrite app_assoc in E. apply app_inj_tail in E as [-> <-].
  destruct l as [|z l]; injection L as -> L; [left; reflexivity|right]. exists p, l. reflexivity.
Qed.
Theorem C34_js : forall relative s, valid s -> no_nul_digit s -> nested_exactly (js_lang relative) (reads_units js_grammar) plain_wide s.
Proof.
  intros relative s V Z. assert (Z' : no_nul_digit (34%N :: s ++ [34%N])) by (intros p d q E; destruct (after_zero s p d q E) as [->|(p' & q' & E')]; [reflexivity|exact (Z _ _ _ E')]).
  eapply (nested (js_lang relative) js_char); [split; reflexivity|reflexivity|apply js_written|apply reads_units_unique| |apply (between_length vf_fix)|].
  - intros src E. destruct (C25_js_denotes relative _ (valid_between s V) Z') as (src' & u & E' & D & U). rewrite E in E'. injection E' as <-. exists u. split; [exact D|exact U].
  - apply fix_between. unfold plain_wide, not_control_char. lia.
Qed.
Print Assumptions C34_js.
(** Go rejects the outer literal of every string with an apostrophe. *)
Theorem C34_go : forall s, valid s -> nested_exactly go_lang (reads_bytes go_grammar) plain_ascii s.
Proof.
  intros s V. destruct (in_dec N.eq_dec 39%N s) as [A|A].
  - destruct (C34_twice _ _ _ go_lang s (conj eq_refl eq_refl)) as [E _].
    destruct (C29_go_apostrophe_refuted (34%N :: s ++ [34%N]) (valid_between s V)) as (src & E' & R); [right; apply in_or_app; left; exact A|].
    eexists _, src. split; [apply (literal_source go_lang c_family_char); reflexivity|]. split; [rewrite E; exact E'|]. split.
    + intros (u & D & _). specialize (R []). rewrite (D []) in R. discriminate R.
    + intros F. rewrite Forall_forall in F. destruct (F _ A) as [_ N]. destruct N. cbn. auto.
  - eapply (nested go_lang c_family_char); [split; reflexivity|reflexivity|apply c_family_written|apply reads_bytes_unique| |apply (between_length vf_fix)|].
    + intros src E. destruct (C29_go_denotes (34%N :: s ++ [34%N]) (valid_between s V)) as (src' & u & E' & D & U).
      { intros [X|X]; [discriminate|]. apply in_app_or in X as [X|[X|[]]]; [auto|discriminate]. }
      rewrite E in E'. injection E' as <-. exists u. split; [exact D|exact U].
    + apply fix_between. unfold plain_ascii, printable. lia.
Qed.
Print Assumptions C34_go.
Lemma hex_between s : no_control_hex s -> no_control_hex (34%N :: s ++ [34%N]).
Proof.
  intros H p c d q E C N. destruct p as [|x p]; [injection E as <- E; lia|]. injection E as _ E. destruct (@exists_last _ (d :: q)) as (l & y & L); [discriminate|]. rewrite L in E.
  change (p ++ c :: l ++ [y]) with (p ++ (c :: l) ++ [y]) in E. rewrite app_assoc in E. apply app_inj_tail in E as [-> <-].
  destruct l as [|z l]; injection L as -> L; [reflexivity|]. exact (H p c z l eq_refl C N).
Qed.
(** C# and C, where a control character before a hexadecimal digit is not read back. *)
Theorem C34_csharp : forall s, valid s -> no_control_hex s -> nested_exactly csharp_lang (reads_units csharp_grammar) plain_ascii s.
Proof.
  intros s V H. eapply (nested csharp_lang c_family_char); [split; reflexivity|reflexivity|apply c_family_written|apply reads_units_unique| |apply (between_length vf_fix)|].
  - intros src E. destruct (C31_csharp_denotes _ (valid_between s V) (hex_between s H)) as (src' & u & E' & D & U). rewrite E in E'. injection E' as <-. exists u. split; [exact D|exact U].
  - apply fix_between. unfold plain_ascii, printable. lia.
Qed.
Print Assumptions C34_csharp.
Lemma not_between c s : c <> 34%N -> ~ In c s -> ~ In c (34%N :: s ++ [34%N]).
Proof. intros C N [X|X]; [congruence|]. apply in_app_or in X as [X|[X|[]]]; congruence. Qed.
Theorem C34_c : forall s, valid s -> ~ In 17%N s -> ~ In 18%N s -> Forall (fun c => c < 128 \/ 160 <= c)%N s -> no_control_hex s ->
  nested_exactly c_lang (reads_bytes c_grammar) plain_ascii s.
Proof.
  intros s V A B R H. apply (nested c_lang c_family_char _ _ s (34%N :: s ++ [34%N])); [split; reflexivity|reflexivity|apply c_family_written|apply reads_bytes_unique| |cbn; rewrite app_length; cbn; lia|auto].
  intros src E. destruct (C30_c_round_trip_partial (34%N :: s ++ [34%N])) as (src' & u & E' & D & U).
  - apply valid_between; exact V.
  - apply not_between; [discriminate|exact A].
  - apply not_between; [discriminate|exact B].
  - constructor; [lia|]. apply Forall_app. split; [exact R|]. constructor; [lia|constructor].
  - apply hex_between; exact H.
  - rewrite E in E'. injection E' as <-. exists u. split; [exact D|exact U].
Qed.
Print Assumptions C34_c.
Lemma interpolation_between s : no_interpolation s -> no_interpolation (34%N :: s ++ [34%N]).
Proof.
  intros H. apply no_interpolation_cons; [discriminate|]. intros p n q E L. destruct (@exists_last _ (chr "{" :: q)) as (l & y & Q); [discriminate|]. rewrite Q in E. rewrite !app_assoc in E. apply app_inj_tail in E as [E <-].
  destruct l as [|z l]; injection Q as Q1 Q2; [discriminate Q1|]. subst z. apply (H p n l); [rewrite E, app_assoc; reflexivity|exact L].
Qed.
Theorem C34_nix : forall s, valid s -> Forall nix_char s -> no_interpolation s -> nested_exactly nix_lang (denotes nix_grammar) plain_ascii s.
Proof.
  intros s V C I. apply (nested nix_lang c_family_char _ _ s (34%N :: s ++ [34%N])); [split; reflexivity|reflexivity|apply c_family_written|intros; eapply denotes_unique; eauto| |cbn; rewrite app_length; cbn; lia|auto].
  intros src E. destruct (proj2 (C32_nix_exact (34%N :: s ++ [34%N]) (valid_between s V))) as (src' & E' & D).
  - split; [|apply interpolation_between; exact I]. constructor; [left; unfold printable; lia|]. apply Forall_app. split; [exact C|]. constructor; [left; unfold printable; lia|constructor].
  - rewrite E in E'. injection E' as <-. exact D.
Qed.
Print Assumptions C34_nix.

(** Met by texts that need no escapes and by texts that do. *)
Example C34_met : valid $"it is 1 < 2" /\ Forall plain_ascii $"it is 1 < 2" /\ valid $"it's" /\ Forall plain_wide $"it's" /\ ~ Forall plain_ascii $"it's" /\
  no_nul_digit $"it's" /\ no_control_hex $"it's" /\ no_interpolation $"it's" /\ Forall nix_char $"it's".
Proof.
  assert (V : forall s, forallb (fun c => (32 <=? c) && (c <=? 126))%N s = true -> valid s /\ Forall printable s).
  { intros s H. rewrite forallb_forall in H. split; apply Forall_forall; intros c C; apply H in C; unfold scalar, printable; lia. }
  assert (Z : forall p (d : N) q, $"it's" <> p ++ 0%N :: d :: q) by (intros p d q E; assert (X : In 0%N $"it's") by (rewrite E; apply in_or_app; right; left; reflexivity); cbn in X; intuition discriminate).
  split; [apply V; reflexivity|]. split.
  { apply Forall_forall. intros c C. split; [destruct (V $"it is 1 < 2" eq_refl) as [_ F]; rewrite Forall_forall in F; auto|]. cbn in C |- *. intuition (subst; discriminate). }
  split; [apply V; reflexivity|]. split.
  { apply Forall_forall. intros c C. unfold plain_wide, not_control_char. cbn in C |- *. lia. }
  split. { intros F. inversion F as [|? ? _ F1]; subst. inversion F1 as [|? ? _ F2]; subst. inversion F2 as [|? ? [_ N] _]; subst. apply N. cbn. auto. }
  split; [intros p d q E; destruct (Z _ _ _ E)|]. split.
  { intros p c d q E C. assert (X : In c $"it's") by (rewrite E; apply in_or_app; right; left; reflexivity). cbn in X. lia. }
  split. { intros p n q E. assert (X : In (chr "{") $"it's") by (rewrite E; apply in_or_app; right; apply in_or_app; right; left; reflexivity). cbn in X. intuition discriminate. }
  eapply Forall_impl; [|apply (V $"it's" eq_refl)]. intros c C. left. exact C.
Qed.
