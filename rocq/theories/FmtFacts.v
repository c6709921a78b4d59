(** * Lemmas about the formatter. *)
From Verif Require Import Tokens SpecTokens Fmt.

(** Replace the writer of a state, possibly by one of another type. *)
Definition put {A B} (st : fstate A) (w : B) : fstate B :=
  mk_fstate w (f_line st) (f_spaces st) (f_indent st).

(** ** Traces: the sequence of writer calls *)

Inductive event : Type :=
| EStr (s : str)
| ELine
| ETrailing.

(** The writer that records the calls and never fails. *)
Definition trace_writer : writer (list event) := {|
  w_str := fun s w => (w ++ [EStr s], true);
  w_line := fun _ w => (w ++ [ELine], true);
  w_trailing := fun _ w => (w ++ [ETrailing], true)
|}.

Section Sim.
Context {W : Type} (wr : writer W) (cfg : config).

Definition do_event (e : event) (w : W) : W * bool :=
  match e with
  | EStr s => w_str wr s w
  | ELine => w_line wr cfg w
  | ETrailing => w_trailing wr cfg w
  end.

(** Perform calls one after the other, stopping at the first failure. *)
Fixpoint replay (tr : list event) (w : W) : W * bool :=
  match tr with
  | [] => (w, true)
  | e :: tr' =>
      let '(w', ok) := do_event e w in
      if ok then replay tr' w' else (w', false)
  end.

Lemma replay_app a b w :
  replay (a ++ b) w =
  let '(w', ok) := replay a w in if ok then replay b w' else (w', false).
Proof.
  revert w; induction a as [|e a IH]; intros w; cbn; auto.
  destruct (do_event e w) as [w' [|]]; auto.
Qed.

(** A run on the trace writer and the run on [wr] it predicts. *)
Definition sim (w0 : W) (tr0 : list event)
    (rt : fstate (list event) * bool) (r : fstate W * bool) : Prop :=
  exists tr, f_write (fst rt) = tr0 ++ tr /\
    match replay tr w0 with
    | (w', true) => r = (put (fst rt) w', snd rt)
    | (w', false) => f_write (fst r) = w' /\ snd r = false
    end.

Definition sim_fun (ft : fstate (list event) -> fstate (list event) * bool)
    (f : fstate W -> fstate W * bool) : Prop :=
  forall stt w, sim w (f_write stt) (ft stt) (f (put stt w)).

Lemma put_with {A B} (st : fstate A) (b c : B) :
  put (put st b) c = put st c.
Proof. reflexivity. Qed.
Lemma put_id {A} (st : fstate A) : put st (f_write st) = st.
Proof. destruct st; reflexivity. Qed.

Lemma and_then_sim w0 tr0 rt r kt k :
  sim w0 tr0 rt r -> sim_fun kt k ->
  sim w0 tr0 (and_then rt kt) (and_then r k).
Proof.
  intros [tr [Ht H]] K. destruct rt as [stt okt]; cbn in Ht.
  destruct (replay tr w0) as [w1 ok1] eqn:E1. destruct ok1.
  - cbn in H. subst r. cbn. destruct okt.
    + destruct (K stt w1) as [tr2 [Ht2 H2]]. exists (tr ++ tr2).
      split; [rewrite Ht2, Ht, app_assoc; auto|].
      rewrite replay_app, E1. exact H2.
    + exists tr. cbn. rewrite E1. auto.
  - destruct H as [H1 H2]. destruct r as [st ok]; cbn in H1, H2; subst ok. cbn.
    destruct okt.
    + destruct (K stt w0) as [tr2 [Ht2 _]]. exists (tr ++ tr2). cbn.
      split; [rewrite Ht2, Ht, app_assoc; auto|].
      rewrite replay_app, E1. auto.
    + exists tr; cbn. rewrite E1; auto.
Qed.

Lemma ret_sim ok : sim_fun (fun st => (st, ok)) (fun st => (st, ok)).
Proof. intros stt w. exists []. cbn. rewrite app_nil_r; auto. Qed.

Lemma on_write_sim e ft f :
  (forall w, ft w = (w ++ [e], true)) -> (forall w, f w = do_event e w) ->
  sim_fun (on_write ft) (on_write f).
Proof.
  intros Ht Hf stt w. unfold on_write. rewrite Ht. cbn.
  rewrite Hf. destruct (do_event e w) as [w' ok] eqn:E.
  exists [e]. cbn. split; auto. rewrite E. destruct ok; auto.
Qed.

Lemma write_lines_sim n :
  sim_fun (write_lines trace_writer cfg n) (write_lines wr cfg n).
Proof.
  induction n as [|n IH]; cbn [write_lines].
  - apply ret_sim.
  - intros stt w. apply and_then_sim; auto.
    apply (on_write_sim ELine); auto.
Qed.

Lemma write_padding_sim fuel chunk c : forall n,
  sim_fun (write_padding trace_writer fuel chunk c n)
          (write_padding wr fuel chunk c n).
Proof.
  induction fuel as [|f IH]; intros n; cbn [write_padding].
  - apply ret_sim.
  - destruct n as [|n]; [apply ret_sim|].
    intros stt w. apply and_then_sim; auto.
    apply (on_write_sim (EStr (repeat c (Nat.min (S n) chunk)))); auto.
Qed.

Lemma flush_sim :
  sim_fun (flush_whitespace trace_writer cfg) (flush_whitespace wr cfg).
Proof.
  intros stt w. unfold flush_whitespace. cbn [put f_line f_spaces f_indent f_write].
  set (s0 := mk_fstate (f_write stt) WNone 0 (f_indent stt)).
  change (mk_fstate w WNone 0 (f_indent stt)) with (put s0 w).
  change (f_write stt) with (f_write s0).
  destruct (into_indent (f_line stt)) as [lines|].
  - apply and_then_sim; [apply write_lines_sim|].
    intros st1 w1. cbn [put f_indent].
    fold (put st1 w1).
    destruct (c_indentation cfg).
    + apply write_padding_sim.
    + apply and_then_sim; [apply write_padding_sim|].
      intros st2 w2. apply write_padding_sim.
  - apply write_padding_sim.
Qed.

Lemma write_str_sim s :
  sim_fun (write_str trace_writer cfg s) (write_str wr cfg s).
Proof.
  unfold write_str. destruct s as [|c s]; [apply ret_sim|].
  intros stt w. apply and_then_sim; [apply flush_sim|].
  intros st1 w1. apply (on_write_sim (EStr (c :: s))); auto.
Qed.

Lemma write_all_strs_sim ss :
  sim_fun (write_all_strs trace_writer cfg ss) (write_all_strs wr cfg ss).
Proof.
  induction ss as [|s ss IH]; cbn [write_all_strs]; [apply ret_sim|].
  intros stt w. apply and_then_sim; auto. apply write_str_sim.
Qed.

Lemma trailing_sim :
  sim_fun (write_trailing_line trace_writer cfg) (write_trailing_line wr cfg).
Proof.
  intros stt w. unfold write_trailing_line.
  set (s0 := mk_fstate (f_write stt) WNone 0 (f_indent stt)).
  change (mk_fstate (f_write (put stt w)) WNone 0 (f_indent (put stt w)))
    with (put s0 w).
  change (f_write stt) with (f_write s0).
  apply (on_write_sim ETrailing); auto.
Qed.

(** Pure state changes. *)
Lemma pure_sim (gt : fstate (list event) -> fstate (list event))
  (g : fstate W -> fstate W) :
  (forall stt w, g (put stt w) = put (gt stt) w) ->
  (forall stt, f_write (gt stt) = f_write stt) ->
  sim_fun (fun st => (gt st, true)) (fun st => (g st, true)).
Proof.
  intros H1 H2 stt w. exists []. cbn. rewrite H1, H2, app_nil_r; auto.
Qed.

Lemma push_sim : sim_fun (fun st => (f_push st, true)) (fun st => (f_push st, true)).
Proof.
  apply pure_sim; intros stt; unfold f_push; [intros w; cbn|]; destruct (f_line stt); auto.
Qed.
Lemma line_sim : sim_fun (fun st => (f_do_line st, true)) (fun st => (f_do_line st, true)).
Proof.
  apply pure_sim; intros stt; unfold f_do_line; [intros w; cbn|]; destruct (f_line stt); auto.
Qed.
Lemma space_sim : sim_fun (fun st => (f_space st, true)) (fun st => (f_space st, true)).
Proof. apply pure_sim; reflexivity. Qed.
Lemma indentation_sim n :
  sim_fun (fun st => (f_indentation n st, true)) (fun st => (f_indentation n st, true)).
Proof.
  apply pure_sim; intros stt; unfold f_indentation, f_push; [intros w; cbn|];
    destruct (f_line stt); auto.
Qed.

Context {LI : Type} (ops : lang_ops LI).

(** The same relation for results that also return the rest of the cursor. *)
Definition sim3 (w0 : W) (tr0 : list event)
    (rt : fstate (list event) * list (item LI) * bool)
    (r : fstate W * list (item LI) * bool) : Prop :=
  exists tr, f_write (fst (fst rt)) = tr0 ++ tr /\
    match replay tr w0 with
    | (w', true) => r = (put (fst (fst rt)) w', snd (fst rt), snd rt)
    | (w', false) => f_write (fst (fst r)) = w' /\ snd r = false
    end.

Lemma next_sim w0 tr0 rt r kt k rest :
  sim w0 tr0 rt r ->
  (forall stt w, sim3 w (f_write stt) (kt stt) (k (put stt w))) ->
  sim3 w0 tr0
    (let '(st, ok) := rt in if ok then kt st else (st, rest, false))
    (let '(st, ok) := r in if ok then k st else (st, rest, false)).
Proof.
  intros [tr [Ht H]] K. destruct rt as [stt okt]; cbn in Ht.
  destruct (replay tr w0) as [w1 ok1] eqn:E1. destruct ok1.
  - cbn in H. subst r. cbn. destruct okt.
    + destruct (K stt w1) as [tr2 [Ht2 H2]]. exists (tr ++ tr2).
      split; [rewrite Ht2, Ht, app_assoc; auto|].
      rewrite replay_app, E1. exact H2.
    + exists tr. cbn. rewrite E1. auto.
  - destruct H as [H1 H2]. destruct r as [st ok]; cbn in H1, H2; subst ok. cbn.
    destruct okt.
    + destruct (K stt w0) as [tr2 [Ht2 _]]. exists (tr ++ tr2). cbn.
      split; [rewrite Ht2, Ht, app_assoc; auto|].
      rewrite replay_app, E1. auto.
    + exists tr; cbn. rewrite E1; auto.
Qed.

Lemma pure_next w0 tr0 a b kt k :
  sim w0 tr0 (a, true) (b, true) ->
  (forall stt w, sim3 w (f_write stt) (kt stt) (k (put stt w))) ->
  sim3 w0 tr0 (kt a) (k b).
Proof. intros H K. exact (next_sim w0 tr0 (a, true) (b, true) kt k [] H K). Qed.

Lemma stop_sim stt w rest ok :
  sim3 w (f_write stt) (stt, rest, ok) (put stt w, rest, ok).
Proof. exists []; cbn. rewrite app_nil_r; auto. Qed.

Lemma format_cursor_sim fuel : forall eocq stack cursor stt w,
  sim3 w (f_write stt)
    (format_cursor ops cfg fuel _ trace_writer eocq stack cursor stt)
    (format_cursor ops cfg fuel _ wr eocq stack cursor (put stt w)).
Proof.
  induction fuel as [|fuel IH]; intros eocq stack cursor stt w; cbn [format_cursor].
  { apply stop_sim. }
  destruct cursor as [|it rest]; [apply stop_sim|].
  destruct stack as [|head below]; [apply stop_sim|].
  destruct it as [s|p l|p l| | | |n|e| | |].
  - apply next_sim; [|intros; apply IH].
    destruct (in_quote head); [apply write_all_strs_sim|apply write_str_sim].
  - apply next_sim; [|intros; apply IH]. apply write_all_strs_sim.
  - apply IH.
  - apply (pure_next _ _ (f_push stt) (f_push (put stt w))
      (format_cursor ops cfg fuel _ trace_writer eocq (head :: below) rest)
      (format_cursor ops cfg fuel _ wr eocq (head :: below) rest));
      [apply push_sim|intros; apply IH].
  - apply (pure_next _ _ (f_do_line stt) (f_do_line (put stt w))
      (format_cursor ops cfg fuel _ trace_writer eocq (head :: below) rest)
      (format_cursor ops cfg fuel _ wr eocq (head :: below) rest));
      [apply line_sim|intros; apply IH].
  - apply (pure_next _ _ (f_space stt) (f_space (put stt w))
      (format_cursor ops cfg fuel _ trace_writer eocq (head :: below) rest)
      (format_cursor ops cfg fuel _ wr eocq (head :: below) rest));
      [apply space_sim|intros; apply IH].
  - destruct (Z.eqb n 0); [apply IH|].
    apply (pure_next _ _ (f_indentation n stt) (f_indentation n (put stt w))
      (format_cursor ops cfg fuel _ trace_writer eocq (head :: below) rest)
      (format_cursor ops cfg fuel _ wr eocq (head :: below) rest));
      [apply indentation_sim|intros; apply IH].
  - destruct (negb (in_quote head)).
    + apply next_sim; [|intros; apply IH]. apply write_all_strs_sim.
    + destruct (negb e); [|apply stop_sim].
      destruct (write_all_strs string_writer cfg (l_open_quote ops false) (formatter_new []))
        as [out [|]]; [|apply stop_sim].
      destruct (format_cursor ops cfg fuel str string_writer true
                  [mk_frame false false false] rest out) as [[out' rest'] [|]];
        [|apply stop_sim].
      destruct (write_all_strs string_writer cfg (l_close_quote ops false) out')
        as [out'' [|]]; [|apply stop_sim].
      apply next_sim; [|intros; apply IH]. apply write_all_strs_sim.
  - destruct eocq; [apply stop_sim|]. destruct (in_quote head); [|apply stop_sim].
    apply next_sim; [|intros; apply IH]. apply write_all_strs_sim.
  - destruct (in_quote head); [|apply stop_sim].
    destruct rest as [|[s|? ?|? ?| | | |?|?| | |] [|[?|? ?|? ?| | | |?|?| | |] rest']];
      (apply next_sim; [apply write_all_strs_sim|intros; apply IH]).
  - destruct (end_on_eval head); [|apply stop_sim].
    apply next_sim; [|intros; apply IH]. apply write_all_strs_sim.
Qed.

Lemma format_items_sim its :
  sim_fun (format_items ops cfg trace_writer its) (format_items ops cfg wr its).
Proof.
  intros stt w. unfold format_items. generalize (S (length its)) as fuel; intros fuel.
  pose proof (format_cursor_sim fuel false
    [mk_frame false false false] its stt w) as [tr [Ht H]].
  destruct (format_cursor ops cfg fuel _ trace_writer false _ its stt)
    as [[stt' rest] ok].
  destruct (format_cursor ops cfg fuel _ wr false _ its (put stt w))
    as [[st' rest'] ok']. cbn in Ht, H.
  exists tr. cbn. split; auto.
  destruct (replay tr w) as [w' [|]]; cbn in H.
  - inversion H; subst; auto.
  - exact H.
Qed.

End Sim.

(** Files. *)
Section FileSim.
Context {W : Type} (wr : writer W) (cfg : config).
Context {LI Config Format : Type} (L : lang_def LI Config Format).

Lemma format_streams_sim c ts :
  sim_fun wr cfg (format_streams L trace_writer cfg c ts) (format_streams L wr cfg c ts).
Proof.
  induction ts as [|[t f] ts IH]; cbn [format_streams]; [apply ret_sim|].
  intros stt w. apply and_then_sim; auto. apply format_items_sim.
Qed.

Lemma format_file_sim t c :
  sim_fun wr cfg (format_file L trace_writer cfg t c) (format_file L wr cfg t c).
Proof.
  intros stt w. unfold format_file.
  apply and_then_sim; [apply format_streams_sim|].
  exact (trailing_sim wr cfg).
Qed.
End FileSim.
