(** * Properties of token streams (C01-C09). *)
From Verif Require Import Tokens SpecTokens TokensRun TokensFacts AlgebraFacts
  Values ValuesFacts Overflow OverflowFacts SpecStr StrFacts.

(** ** C01: streams are always whitespace-canonical *)

Theorem C01_canonical : forall LI (cs : list (call LI)),
  canonical (items (build cs)).
Proof. exact (fun LI cs => rcanon_canonical _ (build_canon cs)). Qed.
Print Assumptions C01_canonical.

(** The same starting from any canonical stream, e.g. one that was received. *)
Theorem C01_canonical_from : forall LI (cs : list (call LI)) (t : tokens LI),
  canonical (items t) -> canonical (items (run cs t)).
Proof.
  exact (fun LI cs t H =>
    rcanon_canonical _ (run_canon cs t (canonical_rcanon _ H))).
Qed.
Print Assumptions C01_canonical_from.

Definition history1 : list (call nat) :=
  [CSpace; CItem (Literal (Box $"a")); CSpace; CSpace; CPush; CLine; CPush;
   CIndent; CAppend [CLine; CItem (Lang 7 1); CSpace; CUnindent; CIndent];
   CUnindent; CExtend [Indentation 0; Register 3 2; Space; Push];
   CItem (Literal (Static $"b")); CLine].
(* the history exercises every kind of merging *)
Example history1_items : items (build history1) =
  [Space; Literal (Box $"a"); Indentation 1; Line; Lang 0 1;
   Indentation (-1); Register 5 2; Push; Literal (Static $"b"); Line].
Proof. vm_compute. reflexivity. Qed.

Example C01_from_nonvacuous :
  canonical (items (@build nat [CItem (Literal (Box $"a")); CLine])).
Proof. exact (C01_canonical _ _). Qed.

(** ** C02: content is never lost, duplicated or reordered *)

Theorem C02_content : forall LI (cs : list (call LI)) (t : tokens LI),
  pieces (items (run cs t)) = pieces (items t) ++ pieces (flat_map supplied cs).
Proof. exact @run_pieces. Qed.
Print Assumptions C02_content.

Example C02_example : pieces (flat_map supplied history1) =
  [PText (Box $"a"); PLang 1; PRegister 2; PText (Static $"b")].
Proof. vm_compute. reflexivity. Qed.

(** ** C03: net indentation is preserved *)

Theorem C03_net_indentation : forall LI (cs : list (call LI)) (t : tokens LI),
  net_indentation (items (run cs t)) =
  (net_indentation (items t) + net_indentation (flat_map supplied cs))%Z.
Proof. exact @run_net. Qed.
Print Assumptions C03_net_indentation.

Example C03_example :
  net_indentation (flat_map supplied (history1 ++ [CIndent; CSpace; CIndent]))
  = 2%Z.
Proof. vm_compute. reflexivity. Qed.

(** ** C04: walking imports *)

(** Walking a built stream yields all language items, most recent first. *)
Theorem C04_walk_imports : forall LI (cs : list (call LI)),
  walk_imports (build cs) = rev (imports_of (flat_map supplied cs)).
Proof. exact @build_walk. Qed.
Print Assumptions C04_walk_imports.

(** The iterator stops by itself: extra calls of [next] return nothing. *)
Theorem C04_walk_terminates : forall LI (cs : list (call LI)) fuel,
  length (items (build cs)) < fuel ->
  walk_from fuel (items (build cs)) (last_lang_item (build cs)) =
  walk_imports (build cs).
Proof. exact (fun LI cs => walk_terminates _ (build_wf cs)). Qed.
Print Assumptions C04_walk_terminates.

Example C04_example : walk_imports (build history1) = [2; 1].
Proof. vm_compute. reflexivity. Qed.

(** ** C05: appending, replaying, rebuilding *)

(** Collecting the items of a stream gives back the stream, links included. *)
Theorem C05_rebuild : forall LI (cs : list (call LI)),
  from_iter (items (build cs)) = build cs.
Proof.
  exact (fun LI cs => rebuild_tokens _ (build_wf cs) (build_canon cs)).
Qed.
Print Assumptions C05_rebuild.

(** The empty stream is neutral. *)
Theorem C05_append_neutral : forall LI (cs : list (call LI)),
  append_tokens (build cs) new = build cs /\
  append_tokens new (build cs) = build cs.
Proof.
  exact (fun LI cs => conj
    (append_new_l _ (build_wf cs) (build_canon cs)) eq_refl).
Qed.
Print Assumptions C05_append_neutral.

(** Appending equals replaying, for targets without pending whitespace.
    Missing for the full property: targets that end in whitespace, for which
    the statement is false (below). *)
Theorem C05_append_replay_partial : forall LI (as_ cs : list (call LI)),
  closed (items (build as_)) ->
  append_tokens (build cs) (build as_) = run cs (build as_).
Proof. exact (fun LI as_ cs => append_replay cs _ (build_wf as_)). Qed.
Print Assumptions C05_append_replay_partial.

Example closed_example :
  closed (items (@build nat [CIndent; CItem (Literal (Box $"a"))])).
Proof.
  intros pre x H. vm_compute in H.
  change [Indentation 1; Literal (Box [97%N])]
    with ([@Indentation nat 1] ++ [Literal (Box [97%N])]) in H.
  apply app_inj_tail in H as [_ <-]. reflexivity.
Qed.

(** Associativity, for a left-most stream without pending whitespace. *)
Theorem C05_append_assoc_partial : forall LI (as_ bs cs : list (call LI)),
  closed (items (build as_)) ->
  append_tokens (build cs) (append_tokens (build bs) (build as_)) =
  append_tokens (append_tokens (build cs) (build bs)) (build as_).
Proof.
  exact (fun LI as_ bs cs H =>
    append_assoc _ _ (build cs) (build_wf as_) H (build_wf bs) (build_canon bs)).
Qed.
Print Assumptions C05_append_assoc_partial.

(** Finding: with a pending space on the target, an indent/unindent pair that
    cancels within the appended stream does not touch the target, but replayed
    on the target it swallows the space. *)
Theorem C05_append_replay_refuted : exists as_ cs : list (call nat),
  append_tokens (build cs) (build as_) <> run cs (build as_).
Proof.
  exists [CItem (Literal (Box $"a")); CSpace], [CIndent; CUnindent].
  vm_compute. discriminate.
Qed.
Print Assumptions C05_append_replay_refuted.

Theorem C05_append_assoc_refuted : exists as_ bs cs : list (call nat),
  append_tokens (build cs) (append_tokens (build bs) (build as_)) <>
  append_tokens (append_tokens (build cs) (build bs)) (build as_).
Proof.
  exists [CItem (Literal (Box $"a")); CPush], [CIndent], [CUnindent].
  vm_compute. discriminate.
Qed.
Print Assumptions C05_append_assoc_refuted.

(** ** C06: algebra of whitespace requests *)

(** Exact effect of each request in terms of the items before it. *)
Theorem C06_space : forall LI (t : tokens LI),
  items (space t) =
  match rev (items t) with Space :: _ => items t | _ => items t ++ [Space] end.
Proof. exact @space_spec. Qed.
Print Assumptions C06_space.

Theorem C06_push : forall LI (t : tokens LI) body ws,
  suffix_split space_or_push (items t) body ws ->
  items (push t) = match rev body with Line :: _ => body | _ => body ++ [Push] end.
Proof. exact @push_spec. Qed.
Print Assumptions C06_push.

Theorem C06_line : forall LI (t : tokens LI) body ws,
  suffix_split is_break (items t) body ws ->
  items (line t) = body ++ [Line].
Proof. exact @line_spec. Qed.
Print Assumptions C06_line.

Theorem C06_indentation : forall LI n (t : tokens LI) body ws,
  suffix_split is_white (items t) body ws ->
  items (indentation n t) =
  body ++ (if Z.eqb (n + net_indentation ws) 0 then []
           else [Indentation (n + net_indentation ws)]).
Proof. exact @indentation_spec. Qed.
Print Assumptions C06_indentation.

(** Every sequence splits in this way. *)
Theorem C06_split_exists : forall LI p (xs : list (item LI)),
  exists body ws, suffix_split p xs body ws.
Proof. exact @suffix_split_exists. Qed.
Print Assumptions C06_split_exists.

Theorem C06_idempotent : forall LI (t : tokens LI),
  space (space t) = space t /\ push (push t) = push t /\ line (line t) = line t.
Proof. exact (fun LI t => conj (space_space t) (conj (push_push t) (line_line t))). Qed.
Print Assumptions C06_idempotent.

Theorem C06_push_after : forall LI (t : tokens LI),
  push (line t) = line t /\ push (space t) = push t.
Proof. exact (fun LI t => conj (push_line t) (push_space t)). Qed.
Print Assumptions C06_push_after.

Theorem C06_before_indent : forall LI (t : tokens LI),
  indent (space t) = indent t /\ indent (push t) = indent t /\
  indent (line t) = indent t /\ unindent (space t) = unindent t /\
  unindent (push t) = unindent t /\ unindent (line t) = unindent t.
Proof.
  exact (fun LI t => conj (indentation_space 1 t) (conj (indentation_push 1 t)
   (conj (indentation_line 1 t) (conj (indentation_space (-1) t)
   (conj (indentation_push (-1) t) (indentation_line (-1) t)))))).
Qed.
Print Assumptions C06_before_indent.

(** "line after push equals line" holds when no space directly precedes. *)
Theorem C06_line_after_push_partial : forall LI (t : tokens LI),
  (forall pre post, items t = pre ++ Space :: post ->
     exists y, In y post /\ space_or_push y = false) ->
  line (push t) = line t.
Proof. exact @line_push. Qed.
Print Assumptions C06_line_after_push_partial.

Example line_push_nonvacuous : let t := @build nat [CSpace; CItem (Literal (Box $"a")); CPush] in
  forall pre post, items t = pre ++ Space :: post ->
     exists y, In y post /\ space_or_push y = false.
Proof.
  intros t pre post H. exists (Literal (Box $"a")). split; [|reflexivity].
  vm_compute in H. destruct pre as [|a [|b [|c [|d pre]]]]; inversion H; subst.
  left; reflexivity.
Qed.

Theorem C06_line_after_push_refuted : exists t : tokens nat,
  t = build [CItem (Literal (Box $"a")); CSpace] /\ line (push t) <> line t.
Proof. eexists; split; [reflexivity|]. vm_compute. discriminate. Qed.
Print Assumptions C06_line_after_push_refuted.

(** ** C07: indent directly followed by unindent *)

(** The pair keeps pending indentation but deletes every pending space, push
    and line. *)
Theorem C07_indent_unindent_partial : forall LI (cs : list (call LI)) body ws,
  suffix_split is_white (items (build cs)) body ws ->
  items (unindent (indent (build cs))) = body ++ filter is_indentation ws.
Proof. exact (fun LI cs body ws => indent_unindent _ body ws (build_canon cs)). Qed.
Print Assumptions C07_indent_unindent_partial.

Example C07_example :
  suffix_split is_white (items (@build nat [CItem (Literal (Box $"a")); CIndent; CLine]))
    [Literal (Box $"a")] [Indentation 1; Line].
Proof.
  repeat split.
  - repeat constructor.
  - intros [|? [|? ?]] x H; inversion H; reflexivity.
Qed.

(** ** C08: composite values *)

(** Appending a value appends its parts in order. *)
Theorem C08_append_parts : forall LI (v : value LI) (t : tokens LI),
  append v t = extend (parts v) t.
Proof. exact @format_into_extend. Qed.
Print Assumptions C08_append_parts.

Theorem C08_absent_is_neutral : forall LI (t : tokens LI) b,
  append (VOption None) t = t /\ append (VVec []) t = t /\
  append (VCowSlice b []) t = t /\ append (VRegister (RTuple [])) t = t.
Proof. exact @absent_neutral. Qed.
Print Assumptions C08_absent_is_neutral.

(** Numbers are appended as text that reads back as the number. *)
Theorem C08_numbers : forall LI (z : Z), exists s,
  parts (@VInt LI z) = [Literal (Box s)] /\ read_int s = Some z.
Proof. exact (fun LI z => ex_intro _ _ (conj eq_refl (dec_z_read z))). Qed.
Print Assumptions C08_numbers.

Example C08_example :
  items (append (VVec [VStr $"a"; VOption (Some (VQuoted (VInt (-120))));
                       VCowSlice true [VLang 3; VRegister (RTuple [RItem 4; RItem 5])];
                       VFn [CLine; CPush]]) (@new nat)) =
  [Literal (Box $"a"); OpenQuote false; Literal (Box $"-120"); CloseQuote;
   Lang 0 3; Register 5 4; Register 6 5; Line].
Proof. vm_compute. reflexivity. Qed.

(** ** C09: no indentation overflow *)

Theorem C09_no_overflow : forall LI (cs : list (call LI)),
  (requested (flat_map supplied cs) <= 32767)%Z ->
  run_checked cs new = Some (build cs) /\
  (forall pre post, items (build cs) = pre ++ post ->
     level_checked 0 pre = Some (net_indentation pre)).
Proof. exact @no_overflow. Qed.
Print Assumptions C09_no_overflow.

Example C09_example :
  (requested (flat_map supplied
     (history1 ++ [CItem (Indentation 32000); CUnindent])) <= i16_max)%Z.
Proof. vm_compute. discriminate. Qed.

(** Outside of that range the builder does overflow. *)
Theorem C09_overflow_refuted : exists cs : list (call nat), run_checked cs new = None.
Proof. exists [CItem (Indentation 32767); CIndent]. vm_compute. reflexivity. Qed.
Print Assumptions C09_overflow_refuted.
