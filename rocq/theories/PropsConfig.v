(** * C85: what the settings of a formatter change in a file. *)
From Verif Require Import Str StrFacts Tokens SpecTokens TokensRun TokensFacts Values Fmt SpecFmt
  LangBase LangC LangCsharp LangDart LangGo LangJava LangJs LangNix LangPython LangRust LangSwift
  SpecFile SpecBuild FmtConfig SpecConfig ConfigFacts.

Lemma configured_with {LI C F} (L : lang_def LI C F) ss :
  configured L ss = mk_config (chosen set_indentation (ld_indentation L) ss) (chosen set_newline [10%N] ss).
Proof.
  unfold configured, chosen. change (config_from_lang L) with (mk_config (ld_indentation L) [10%N]).
  generalize (ld_indentation L) [10%N]. induction ss as [|s ss IH]; intros k nl; [reflexivity|].
  cbn [fold_left latest]. destruct s as [k'|nl']; cbn [apply_setting with_indentation with_newline c_indentation c_newline];
    unfold with_indentation, with_newline; cbn [c_indentation c_newline]; rewrite IH;
    cbn [set_indentation set_newline]; destruct (latest set_indentation ss), (latest set_newline ss); reflexivity.
Qed.

Lemma one_file_flat {LI C F} (L : lang_def LI C F) c t :
  Forall (fun p => flatb [] (items (fst p)) = true) (ld_format_file L t c) -> one_file L (ld_indentation L) c t.
Proof.
  intros FL. destruct (file_lines L c t FL) as (lines & ok & H). exists lines, ok. intros ss ind nl.
  specialize (H (configured L ss)). rewrite configured_with in *. cbn [c_newline c_indentation] in H.
  destruct H as [H1 H2]. split; [exact H1|]. split; [exact (f_equal fst H2)|exact (f_equal snd H2)].
Qed.

(** For every language: the file of a stream is one file for all settings when no
    quoted value is inside of a string in what the language makes of the stream. *)
Theorem C85_settings : forall LI C F (L : lang_def LI C F) c t,
  Forall (fun p => flat_quotes (items (fst p))) (ld_format_file L t c) ->
  one_file L (ld_indentation L) c t.
Proof.
  intros LI C F L c t H. apply one_file_flat. revert H. apply Forall_impl. intros p. apply flatb_quotes.
Qed.
Print Assumptions C85_settings.

(** For the languages of the library it is enough that none is in the stream.  The
    indentation is four spaces unless set. *)
Theorem C85_library :
  (forall t, flat_quotes (items t) -> one_file c_lang (ISpace 4) tt t) /\
  (forall c t, flat_quotes (items t) -> one_file csharp_lang (ISpace 4) c t) /\
  (forall t, flat_quotes (items t) -> one_file dart_lang (ISpace 4) tt t) /\
  (forall c t, flat_quotes (items t) -> one_file go_lang (ISpace 4) c t) /\
  (forall c t, flat_quotes (items t) -> one_file java_lang (ISpace 4) c t) /\
  (forall relative c t, flat_quotes (items t) -> one_file (js_lang relative) (ISpace 4) c t) /\
  (forall t, flat_quotes (items t) -> one_file python_lang (ISpace 4) tt t) /\
  (forall c t, flat_quotes (items t) -> one_file rust_lang (ISpace 4) c t) /\
  (forall t, flat_quotes (items t) -> one_file swift_lang (ISpace 4) tt t) /\
  (forall c t, flat_quotes (items t) ->
     (forall n v l, In (NVariable n v l) (uses t) ->
        flat_quotes (items (nix_value v l)) /\ closed_quotes (items (nix_value v l))) ->
     one_file nix_lang (ISpace 4) c t).
Proof.
  repeat split.
  - intros t H. apply (one_file_flat c_lang), two_flat; [apply c_tame|apply flatb_quotes, H].
  - intros c t H. apply (one_file_flat csharp_lang), cs_flat, flatb_quotes, H.
  - intros t H. apply (one_file_flat dart_lang), two_flat; [apply dart_tame|apply flatb_quotes, H].
  - intros c t H. apply (one_file_flat go_lang), two_flat; [apply go_tame|apply flatb_quotes, H].
  - intros c t H. apply (one_file_flat java_lang). cbn [ld_format_file java_lang].
    pose proof (java_tame c t) as T. destruct (java_header c t) as [h im]. apply two_flat; [exact T|apply flatb_quotes, H].
  - intros r c t H. apply (one_file_flat (js_lang r)), two_flat; [apply js_tame|apply flatb_quotes, H].
  - intros t H. apply (one_file_flat python_lang), two_flat; [apply py_tame|apply flatb_quotes, H].
  - intros c t H. apply (one_file_flat rust_lang), two_flat; [apply rust_tame|apply flatb_quotes, H].
  - intros t H. apply (one_file_flat swift_lang), two_flat; [apply swift_tame|apply flatb_quotes, H].
  - intros c t H V. apply (one_file_flat nix_lang), two_flat; [|apply flatb_quotes, H].
    apply nix_tame. intros n v l I. destruct (V n v l I) as [V1 V2]. split; [apply flatb_quotes, V1|exact V2].
Qed.
Print Assumptions C85_library.

(** A block with a string that holds a call, and an import. *)
Definition config_demo : tokens rust_import :=
  build [CItem (Lang 0 (rust_new (Static $"std::fmt") (Static $"Debug"))); CSpace; CItem (Literal (Static $"{")); CIndent;
    CItem (OpenQuote true); CItem (Literal (Static $"a")); CItem OpenEval; CItem (Literal (Static $"f()")); CItem CloseEval;
    CItem CloseQuote; CUnindent; CItem (Literal (Static $"}"))].
Example C85_example :
  flat_quotes (items config_demo) /\
  exists f g, outcome (format_file rust_lang string_writer (configured rust_lang []) config_demo Direct (formatter_new [])) = (f, true) /\
    outcome (format_file rust_lang string_writer
      (configured rust_lang [SetNewline $"|"; SetIndentation (ISpace 1); SetNewline $"~"; SetIndentation (ISpace 2)])
      config_demo Direct (formatter_new [])) = (g, true) /\
    f = $"use std::fmt::Debug;" ++ [10%N; 10%N] ++ $"Debug {" ++ [10%N] ++ $"    ""af()""" ++ [10%N] ++ $"}" ++ [10%N] /\
    g = $"use std::fmt::Debug;~~Debug {~  ""af()""~}~".
Proof.
  split; [apply quotes_flatb; vm_compute; reflexivity|].
  eexists. eexists. split; [vm_compute; reflexivity|]. split; [vm_compute; reflexivity|].
  split; vm_compute; reflexivity.
Qed.

(** A quoted value inside of a string is written with the newline that is set, and
    that newline is escaped like any other text of the string: the lines of such a
    file depend on the setting. *)
Theorem C85_nested_needed :
  ~ (forall t : tokens rust_import, one_file rust_lang (ISpace 4) Direct t).
Proof.
  intros H.
  destruct (H (build [CItem (OpenQuote false); CItem (OpenQuote false); CItem (Literal (Static $"a")); CPush;
    CItem (Literal (Static $"b")); CItem CloseQuote; CItem CloseQuote])) as (lines & ok & X).
  destruct (X []) as (_ & X1 & _). destruct (X [SetNewline $"|"]) as (_ & X2 & _).
  change (chosen set_indentation (ISpace 4) [SetNewline $"|"]) with (ISpace 4) in X2.
  change (chosen set_indentation (ISpace 4) []) with (ISpace 4) in X1.
  rewrite <- X1 in X2. vm_compute in X2. discriminate X2.
Qed.
Print Assumptions C85_nested_needed.

(** The configurations of the languages: the call made last counts, and a
    configuration that was never given is the default. *)
Theorem C85_languages :
  (forall ms, fold_left (fun c m => rust_with_default_import m c) ms (ld_default_config rust_lang) = last ms Direct) /\
  (forall ms, fold_left (fun c m => nix_with_scoped m c) ms (ld_default_config nix_lang) = last ms false) /\
  (forall r ms, fold_left (fun c m => js_with_module_path m c) ms (ld_default_config (js_lang r)) = last (map Some ms) None) /\
  (forall ms, fold_left (fun c m => cs_with_namespace m c) ms (ld_default_config csharp_lang) = last (map Some ms) None) /\
  (forall ms, fold_left (fun c m => go_with_package m c) ms (ld_default_config go_lang) = last (map Some ms) None) /\
  (forall ms, fold_left (fun c m => java_with_package m c) ms (ld_default_config java_lang) = last (map Some ms) None).
Proof.
  assert (LD : forall A (ms : list A) m d, last ms m = last (m :: ms) d).
  { induction ms as [|m' ms IH]; intros m d; [reflexivity|]. rewrite <- (IH m' m). exact (IH m' d). }
  assert (G1 : forall A (f : A -> A -> A), (forall m c, f m c = m) -> forall ms d, fold_left (fun c m => f m c) ms d = last ms d).
  { intros A f E ms. induction ms as [|m ms IH]; intros d; [reflexivity|]. cbn [fold_left]. rewrite E, IH. apply LD. }
  assert (G2 : forall A (f : A -> option A -> option A), (forall m c, f m c = Some m) ->
    forall ms d, fold_left (fun c m => f m c) ms d = last (map Some ms) d).
  { intros A f E ms. induction ms as [|m ms IH]; intros d; [reflexivity|]. cbn [fold_left]. rewrite E, IH. apply LD. }
  repeat split; intros; first [apply G1 | apply G2]; reflexivity.
Qed.
Print Assumptions C85_languages.
