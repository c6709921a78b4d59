(** * When the 16-bit counters overflow, exactly (C09). *)
From Verif Require Import Str Tokens SpecTokens TokensRun TokensFacts Overflow OverflowFacts.
From Coq Require Import ZifyBool.

Section Facts.
Context {LI : Type}.
Notation white := (Forall (fun x : item LI => is_white x = true)).
Definition fits (z : Z) : Prop := (-32768 <= z <= 32767)%Z.
Lemma fits_in z : in_i16 z = true <-> fits z.
Proof. unfold in_i16, fits, i16_min, i16_max. lia. Qed.

(** The level changes in the white space at the end, last item first. *)
Fixpoint pending (r : list (item LI)) : Z :=
  match r with
  | Push :: r' | Space :: r' | Line :: r' => pending r'
  | Indentation u :: r' => u + pending r'
  | _ => 0
  end.
Definition shut (r : list (item LI)) : Prop := match r with [] => True | x :: _ => is_white x = false end.
Fixpoint single (r : list (item LI)) : Prop :=
  match r with
  | Push :: r' | Space :: r' | Line :: r' => single r'
  | Indentation _ :: r' => shut r'
  | _ => True
  end.
Lemma pending_shut r : shut r -> pending r = 0%Z.
Proof. destruct r as [|x r]; [reflexivity|]. destruct x; cbn; congruence. Qed.
Lemma loop_checked r : forall n, single r -> fits n ->
  indentation_loop_checked n r = if in_i16 (n + pending r) then Some (indentation_loop n r) else None.
Proof.
  induction r as [|x r IH]; intros n S F; [cbn; rewrite Z.add_0_r; apply fits_in in F; rewrite F; reflexivity|].
  destruct x; try (cbn; rewrite Z.add_0_r; apply fits_in in F; rewrite F; reflexivity); cbn [indentation_loop_checked indentation_loop pending]; try (apply IH; assumption).
  cbn [single] in S. unfold i16_add. rewrite (pending_shut r S), Z.add_0_r. destruct (in_i16 (n + n0)) eqn:I; [|reflexivity]. rewrite IH; [|destruct r as [|y r]; [exact Logic.I|destruct y; try discriminate S; exact Logic.I]|apply fits_in; exact I].
  rewrite (pending_shut r S), Z.add_0_r, I. reflexivity.
Qed.
Lemma single_add x t : single (ritems t) -> single (ritems (add_item x t)).
Proof.
  intros S. destruct x; cbn [add_item vec_push lang_item lang_item_register push line indentation ritems]; try exact I.
  - clear -S. induction (ritems t) as [|y r IH]; [exact S|]. destruct y; cbn [push_loop single] in *; auto.
  - clear -S. induction (ritems t) as [|y r IH]; [exact S|]. destruct y; cbn [line_loop single] in *; auto.
  - unfold space. destruct (ritems t) as [|y r] eqn:R; [cbn; rewrite R; exact I|]. destruct y; cbn [vec_push ritems]; rewrite ?R; exact S.
  - revert n. induction (ritems t) as [|y r IH]; intros n; [cbn; destruct (Z.eqb n 0); exact I|]. destruct y; cbn [indentation_loop single] in *; try (destruct (Z.eqb n 0); [exact I|reflexivity]); auto.
    apply IH. destruct r as [|y r]; [exact I|]. destruct y; try discriminate S; exact I.
Qed.
Lemma single_extend xs : forall t, single (ritems t) -> single (ritems (extend xs t)).
Proof. induction xs as [|x xs IH]; intros t S; [exact S|]. change (extend (x :: xs) t) with (extend xs (add_item x t)). apply IH, single_add, S. Qed.
Lemma pending_add x t : single (ritems t) -> is_white x = true -> pending (ritems (add_item x t)) = (pending (ritems t) + indentation_of x)%Z.
Proof.
  intros S W. destruct x; try discriminate W; cbn [add_item push line indentation ritems indentation_of]; rewrite ?Z.add_0_r.
  - clear -S. induction (ritems t) as [|y r IH]; [reflexivity|]. destruct y; cbn [push_loop single pending] in *; auto.
  - clear -S. induction (ritems t) as [|y r IH]; [reflexivity|]. destruct y; cbn [line_loop single pending] in *; auto.
  - unfold space. destruct (ritems t) as [|y r] eqn:R; [cbn; rewrite R; reflexivity|]. destruct y; cbn [vec_push ritems]; rewrite ?R; reflexivity.
  - clear W. revert n. induction (ritems t) as [|y r IH]; intros n; [cbn; destruct (Z.eqb_spec n 0); cbn; lia|]. destruct y; cbn [indentation_loop single pending] in *; try (destruct (Z.eqb_spec n 0); cbn; lia); auto.
    rewrite IH; [rewrite (pending_shut r S); lia|]. destruct r as [|y r]; [exact I|]. destruct y; try discriminate S; exact I.
Qed.
Lemma pending_white w : forall t, single (ritems t) -> white w -> pending (ritems (extend w t)) = (pending (ritems t) + net_indentation w)%Z.
Proof.
  induction w as [|x w IH]; intros t S W; [cbn; lia|]. inversion W; subst. change (extend (x :: w) t) with (extend w (add_item x t)).
  rewrite IH, pending_add by (assumption || apply single_add, S). cbn [net_indentation]. lia.
Qed.
(** A place where the white space starts. *)
Definition starts (p : list (item LI)) : Prop := p = [] \/ exists q x, p = q ++ [x] /\ is_white x = false.
Lemma pending_start p : starts p -> pending (ritems (extend p new)) = 0%Z.
Proof.
  intros [->|(q & x & -> & W)]; [reflexivity|]. rewrite extend_app. change (extend [x] ?t) with (add_item x t). destruct x; try discriminate W; reflexivity.
Qed.
Lemma split_white xs : exists p w : list (item LI), xs = p ++ w /\ starts p /\ white w.
Proof.
  induction xs as [|x xs (p & w & E & S & W)] using rev_ind; [exists [], []; split; [reflexivity|split; [left; reflexivity|constructor]]|].
  destruct (is_white x) eqn:X.
  - exists p, (w ++ [x]). split; [rewrite E, app_assoc; reflexivity|]. split; [exact S|]. apply Forall_app. auto.
  - exists (xs ++ [x]), []. split; [rewrite app_nil_r; reflexivity|]. split; [right; eauto|constructor].
Qed.
Lemma checked_app a b : forall t : tokens LI, extend_checked (a ++ b) t = match extend_checked a t with Some t' => extend_checked b t' | None => None end.
Proof. induction a as [|x a IH]; intros t; [reflexivity|]. cbn [app extend_checked]. destruct (add_item_checked x t); [apply IH|reflexivity]. Qed.
Lemma checked_some xs : forall t t' : tokens LI, single (ritems t) -> Forall (fun x => fits (indentation_of x)) xs -> extend_checked xs t = Some t' -> t' = extend xs t.
Proof.
  induction xs as [|x xs IH]; intros t t' S F H; [injection H as <-; reflexivity|]. inversion F as [|? ? F1 F2]; subst. cbn [extend_checked] in H.
  destruct (add_item_checked x t) as [t1|] eqn:A; [|discriminate]. assert (E : t1 = add_item x t).
  { destruct x; cbn [add_item_checked] in A; try (injection A as <-; reflexivity). rewrite loop_checked in A by assumption. destruct (in_i16 _); [|discriminate]. injection A as <-. reflexivity. }
  subst t1. apply IH in H; [exact H|apply single_add, S|exact F2].
Qed.
End Facts.

(** Items whose level changes fit overflow the builder's counter exactly if somewhere
    changes of the level, with nothing between them but white space, add up to
    something that does not fit. *)
Theorem C09_builder : forall LI (xs : list (item LI)), Forall (fun x => fits (indentation_of x)) xs ->
  (extend_checked xs new = None <->
   exists p w rest, xs = p ++ w ++ rest /\ starts p /\ Forall (fun x => is_white x = true) w /\ ~ fits (net_indentation w)).
Proof.
  intros LI xs F. split.
  - intros H. assert (D : exists a x b t, xs = a ++ x :: b /\ extend_checked a new = Some t /\ add_item_checked x t = None).
    { clear F. revert H. generalize (@new LI). induction xs as [|x xs IH]; intros t H; [discriminate|]. cbn [extend_checked] in H. destruct (add_item_checked x t) as [t1|] eqn:A.
      - destruct (IH t1 H) as (a & y & b & t2 & -> & E & N). exists (x :: a), y, b, t2. split; [reflexivity|]. split; [cbn [extend_checked]; rewrite A; exact E|exact N].
      - exists [], x, xs, t. auto. }
    destruct D as (a & x & b & t & -> & E & N). apply Forall_app in F as [FA FX]. inversion FX as [|? ? FX1 FX2]; subst. apply checked_some in E; [|exact I|exact FA]. subst t.
    destruct x; try discriminate N. cbn [add_item_checked indentation_of] in *. rewrite loop_checked in N by ((apply single_extend; exact I) || exact FX1).
    destruct (in_i16 _) eqn:B; [discriminate|]. destruct (split_white a) as (p & w & -> & S & W). exists p, (w ++ [Indentation n]), b. rewrite <- !app_assoc. split; [reflexivity|]. split; [exact S|].
    split; [apply Forall_app; split; [exact W|repeat constructor]|]. rewrite extend_app, pending_white, pending_start in B by (assumption || (apply single_extend; exact I)).
    rewrite <- fits_in, net_app. cbn [net_indentation indentation_of]. replace (net_indentation w + (n + 0))%Z with (n + (0 + net_indentation w))%Z by lia. congruence.
  - intros (p & w & rest & -> & S & W & N). apply Forall_app in F as [FP F]. apply Forall_app in F as [FW _].
    assert (K : extend_checked (p ++ w) new = None); [|rewrite app_assoc, checked_app, K; reflexivity]. clear rest.
    induction w as [|x w IH] using rev_ind; [exfalso; apply N; unfold fits; cbn; lia|]. apply Forall_app in W as [W X], FW as [FW FX]. inversion X as [|? ? X1 _]; inversion FX as [|? ? FX1 _]; subst.
    rewrite app_assoc, checked_app. destruct (extend_checked (p ++ w) new) as [t|] eqn:E; [|reflexivity].
    apply checked_some in E; [|exact I|apply Forall_app; auto]. subst t. cbn [extend_checked]. rewrite net_app in N. cbn [net_indentation] in N.
    destruct x; try discriminate X1; cbn [indentation_of] in *; try (exfalso; assert (C : Some (extend (p ++ w) new) = None) by (apply IH; try assumption; intros G; apply N; unfold fits in *; lia); discriminate C).
    cbn [add_item_checked]. rewrite loop_checked by ((apply single_extend; exact I) || exact FX1). rewrite extend_app, pending_white, pending_start by (assumption || (apply single_extend; exact I)).
    destruct (in_i16 _) eqn:B; [|reflexivity]. exfalso. apply N. apply fits_in in B. unfold fits in *. lia.
Qed.
Print Assumptions C09_builder.

(** The formatter's counter overflows exactly if the changes up to some item add up to
    something that does not fit. *)
Theorem C09_formatter : forall LI (xs : list (item LI)),
  level_checked 0 xs = None <-> exists p rest, xs = p ++ rest /\ ~ fits (net_indentation p).
Proof.
  intros LI xs. assert (G : forall l, fits l -> (level_checked l xs = None <-> exists p rest, xs = p ++ rest /\ ~ fits (l + net_indentation p))).
  { induction xs as [|x xs IH]; intros l L.
    - cbn. split; [discriminate|]. intros (p & rest & E & N). destruct p; [|discriminate]. exfalso. apply N. cbn. rewrite Z.add_0_r. exact L.
    - assert (STEP : forall P : Prop, (fits (l + indentation_of x) -> (P <-> exists p rest, xs = p ++ rest /\ ~ fits (l + indentation_of x + net_indentation p))) ->
        (~ fits (l + indentation_of x) -> P) -> (P <-> exists p rest, x :: xs = p ++ rest /\ ~ fits (l + net_indentation p))).
      { intros P A B. assert (FD : fits (l + indentation_of x) \/ ~ fits (l + indentation_of x)) by (unfold fits; lia). destruct FD as [FD|FD].
        - rewrite (A FD). split; intros (p & rest & E & N).
          + exists (x :: p), rest. split; [rewrite E; reflexivity|]. cbn [net_indentation]. rewrite Z.add_assoc. exact N.
          + destruct p as [|y p]; [exfalso; apply N; cbn; rewrite Z.add_0_r; exact L|]. injection E as <- ->. exists p, rest. split; [reflexivity|]. cbn [net_indentation] in N. rewrite Z.add_assoc in N. exact N.
        - split; [|intros _; exact (B FD)]. intros _. exists [x], xs. split; [reflexivity|]. cbn [net_indentation]. rewrite Z.add_0_r. exact FD. }
      destruct x; cbn [level_checked]; apply STEP; cbn [indentation_of]; rewrite ?Z.add_0_r; intros H; try (apply IH; exact H); try contradiction.
      + unfold i16_add. apply fits_in in H as I. rewrite I. apply IH, H.
      + unfold i16_add. destruct (in_i16 (l + n)) eqn:I; [|reflexivity]. apply fits_in in I. contradiction. }
  apply (G 0%Z). unfold fits. lia.
Qed.
Print Assumptions C09_formatter.

(** Both happen: 32767 and one more in one run of white space; with text between them,
    only the formatter's counter overflows. *)
Example C09_builder_example : extend_checked [Indentation 32767; Push; @Indentation nat 1] new = None /\
  extend_checked [Indentation 32767; Literal (Static $"a"); @Indentation nat 1] new <> None /\
  level_checked 0 [Indentation 32767; Literal (Static $"a"); @Indentation nat 1] = None.
Proof. split; [vm_compute; reflexivity|]. split; [vm_compute; discriminate|vm_compute; reflexivity]. Qed.
