(** * The quotes of the language back ends.

    The models of the languages contain the calls their quotes make on a stream.
    Here they are derived: the text of each quote in /repo/src/lang, read and
    encoded by the model of the macros, makes these calls.  Each theorem gives a
    function of a language model with its quotes as written in the source. *)
From Verif Require Import LangBase LangC LangSwift LangGo LangDart LangJava LangCsharp LangJs LangNix
  LangPython LangRust Tokens SpecTokens TokensRun Values Macro SpecMacro Parse Source.

(** [quote_in!(target => ..)] in an environment; the target is lost if the macro
    rejects the text. *)
Definition with_quote {LI} (T : table LI) (s : str) (e : environment LI) (t : tokens LI) : tokens LI :=
  match quote_in_text T s e t with Some t => t | None => new end.
Arguments with_quote {LI} T s%string e t.
(** Expressions of a quote and what they mean. *)
Definition values {LI} (l : list (str * value LI)) : table LI :=
  mk_table (map (fun p => (fst p, fun _ => snd p)) l) [] [] [] [] [].
Definition codes {LI} (l : list (str * list (call LI))) : table LI :=
  mk_table [] [] [] [] [] (map (fun p => (fst p, fun _ => snd p)) l).
(** Code as [source_key] has it. *)
Definition key (s : str) : str := match trees s with Some ts => source_key ts | None => [] end.

Lemma for_each_ext {LI A} (f g : A -> tokens LI -> tokens LI) : (forall x t, f x t = g x t) ->
  forall l t, for_each f l t = for_each g l t.
Proof. intros H l. unfold for_each. induction l as [|x l IH]; intros t; [reflexivity|]. cbn [fold_left]. rewrite H. apply IH. Qed.

Ltac source := vm_compute; reflexivity.

(** ** C: src/lang/c.rs:83-90 *)
Theorem c_source : forall tokens out, c_imports tokens out =
  match fold_left (fun s i => set_insert c_key_cmp (c_path i, c_system i) s) (walk_imports tokens) [] with
  | [] => out
  | includes =>
      line (for_each (fun '(file, system_header) out => push
        (if system_header : bool then
           with_quote (values [($"file", VItemStr file)]) $"*out => #include <$(file)>" [] out
         else
           with_quote (values [($"quoted ( file )", VQuoted (VItemStr file))])
             $"*out => #include $(quoted(file))" [] out)) includes out)
  end.
Proof.
  intros tokens out. unfold c_imports. destruct (fold_left _ _ _); [reflexivity|]. apply (f_equal line).
  apply for_each_ext. intros [file []] t; source.
Qed.

(** ** Swift: src/lang/swift.rs:107-113 *)
Theorem swift_source : forall tokens out, swift_imports tokens out =
  line (for_each (fun module => with_quote no_table $"*out => $['\r']import $module" [($"module", VItemStr module)])
    (fold_left (fun s i => set_insert cmp_item_str (sw_module i) s) (walk_imports tokens) []) out).
Proof.
  intros tokens out. unfold swift_imports. apply (f_equal line). destruct (fold_left _ _ _); [reflexivity|].
  apply for_each_ext. intros m t. source.
Qed.

(** ** Go: src/lang/go.rs:78-82 and 147-150 *)
Theorem go_source : forall package tokens, go_header package tokens =
  go_imports tokens
    match package with
    | Some p => line (with_quote no_table $"header => package $package" [($"package", VItemStr p)] new)
    | None => new
    end.
Proof. intros [p|] tokens; [|reflexivity]. unfold go_header. f_equal. Qed.
Theorem go_imports_source : forall tokens out, go_imports tokens out =
  match fold_left (fun s i => set_insert cmp_item_str (go_module i) s) (walk_imports tokens) [] with
  | [] => out
  | modules =>
      line (for_each (fun module out => push
        (with_quote (values [($"quoted ( module )", VQuoted (VItemStr module))])
           $"*out => import $(quoted(module))" [] out)) modules out)
  end.
Proof.
  intros tokens out. unfold go_imports. destruct (fold_left _ _ _); [reflexivity|]. apply (f_equal line).
  apply for_each_ext. intros m t. source.
Qed.

(** ** Dart: src/lang/dart/mod.rs:207-215 *)
Theorem dart_source : forall tokens out, dart_imports tokens out =
  match fold_left (fun s i => if str_eqb (content (da_path i)) dart_core then s
                              else set_insert dart_key_cmp (da_path i, da_alias i) s) (walk_imports tokens) [] with
  | [] => out
  | modules =>
      line (for_each (fun '(name, alias) out => push
        match alias with
        | Some alias =>
            with_quote (values [($"quoted ( name )", VQuoted (VItemStr name))])
              $"*out => import $(quoted(name)) as $alias;" [($"alias", VItemStr alias)] out
        | None =>
            with_quote (values [($"quoted ( name )", VQuoted (VItemStr name))])
              $"*out => import $(quoted(name));" [] out
        end) modules out)
  end.
Proof.
  intros tokens out. unfold dart_imports. destruct (fold_left _ _ _); [reflexivity|]. apply (f_equal line).
  apply for_each_ext. intros [n [a|]] t; source.
Qed.

(** ** Java: src/lang/java/mod.rs:74-77 and 204 *)
Theorem java_source : forall package tokens, java_header package tokens =
  java_imports tokens package
    match package with
    | Some p => line (with_quote no_table $"header => package $package;" [($"package", VItemStr p)] new)
    | None => new
    end [].
Proof. intros [p|] tokens; [|reflexivity]. unfold java_header. f_equal. Qed.
Theorem java_import_source : forall package name, Some (java_import_stmt package name) =
  quote_text (values [($"package . clone ( )", VItemStr package); ($"SEP", VStr java_sep); ($"name . clone ( )", VItemStr name)])
    $"import $(package.clone())$(SEP)$(name.clone());" [].
Proof. intros package name. source. Qed.

(** ** C#: src/lang/csharp/mod.rs:63-67 and 203-207 *)
Theorem csharp_source : forall file acc namespace name, cs_step file acc (namespace, name) =
  let '(out, names, imported) := acc in
  if opt_str_eqb (Some namespace) file then acc
  else match map_get str_cmp name names with
       | Some _ => acc
       | None =>
           let '(out, imported) :=
             if negb (set_mem str_cmp namespace imported) then
               (push (with_quote no_table $"*out => using $namespace;" [($"namespace", VStr namespace)] out),
                set_insert str_cmp namespace imported)
             else (out, imported) in
           (out, map_insert str_cmp name namespace names, imported)
       end.
Proof.
  intros file [[out names] imported] namespace name. unfold cs_step.
  destruct (opt_str_eqb _ _); [reflexivity|]. destruct (map_get _ _ _); [reflexivity|]. destruct (negb _); reflexivity.
Qed.
Theorem csharp_namespace_source : forall namespace body file, cs_namespace_block namespace body file =
  with_quote no_table $"file =>
                    namespace $namespace {
                        $tokens
                    }
                " [($"namespace", VItemStr namespace); ($"tokens", VTokens body)] file.
Proof. intros namespace body file. source. Qed.

(** ** Nix: src/lang/nix.rs:165-168, 193-196, 231-239 *)
Theorem nix_source_arguments : forall tokens out, nix_arguments tokens out =
  for_each (fun a out => push (with_quote no_table $"*out => $argument," [($"argument", VStr a)] out))
    (fold_left nix_argument_one (walk_imports tokens) [])
    (out |> txt $"{" |> push |> indent)
  |> txt $"..." |> push |> unindent |> txt $"}:" |> push |> line.
Proof. intros tokens out. unfold nix_arguments. f_equal. Qed.
Theorem nix_source_withs : forall tokens out, nix_withs tokens out =
  match fold_left nix_with_one (walk_imports tokens) [] with
  | [] => out
  | withs =>
      line (for_each (fun name out =>
        push (with_quote no_table $"*out => with $name;" [($"name", VItemStr name)] out)) withs out)
  end.
Proof.
  intros tokens out. unfold nix_withs. destruct (fold_left _ _ _); [reflexivity|]. apply (f_equal line).
  apply for_each_ext. intros m t. source.
Qed.
Theorem nix_source_imports : forall tokens out, nix_imports tokens out =
  match fold_left nix_collect_one (walk_imports tokens) ([], []) with
  | ([], []) => out
  | (inherits, variables) =>
      let out := out |> txt $"let" |> push |> indent in
      let out := for_each (fun '(path, name) out => push
        (with_quote no_table $"*out => inherit ($path) $name;" [($"path", VItemStr path); ($"name", VItemStr name)] out))
        inherits out in
      let out := for_each (fun '(name, (value, last)) out => push
        (with_quote no_table $"*out => $name = $value;"
           [($"name", VItemStr name); ($"value", VTokens (nix_value value last))] out)) variables out in
      out |> unindent |> txt $"in" |> push |> line
  end.
Proof.
  intros tokens out. unfold nix_imports. destruct (fold_left _ _ _) as [inherits variables].
  assert (Y : forall o : Tokens.tokens nix_import,
    for_each (fun '(path, name) (out : Tokens.tokens nix_import) => out |> st $"inherit" |> space |> st $"(" |> istr path |> st $")" |> space
            |> istr name |> st $";" |> push) inherits o =
    for_each (fun '(path, name) (out : Tokens.tokens nix_import) => push (with_quote no_table $"*out => inherit ($path) $name;"
      [($"path", VItemStr path); ($"name", VItemStr name)] out)) inherits o)
    by (apply for_each_ext; intros [p n] t; source).
  assert (Z : forall o : Tokens.tokens nix_import,
    for_each (fun '(name, (value, last)) (out : Tokens.tokens nix_import) => out |> istr name |> space |> st $"=" |> space
            |> append (VTokens (nix_value value last)) |> st $";" |> push) variables o =
    for_each (fun '(name, (value, last)) (out : Tokens.tokens nix_import) => push (with_quote no_table $"*out => $name = $value;"
           [($"name", VItemStr name); ($"value", VTokens (nix_value value last))] out)) variables o)
    by (apply for_each_ext; intros [n [v l]] t; source).
  cbv zeta. rewrite Y, Z. destruct inherits, variables; reflexivity.
Qed.

(** ** Python: src/lang/python.rs:324-345 *)
(** [if let Some(a) = alias] *)
Definition py_if_let (alias : option item_str) (e : environment py_import) : bool * environment py_import :=
  match alias with
  | Some a => (true, ($"a", VItemStr a) :: e)
  | None => (false, e)
  end.
Definition py_table (alias : option item_str) : table py_import :=
  mk_table [] [($"let Some ( a ) = alias", py_if_let alias)] [] [] [] [].
Theorem python_element_source : forall name alias, Some (py_element (name, alias)) =
  quote_text (py_table alias) $"$name$(if let Some(a) = alias => $[' ']as $a)" [($"name", VItemStr name)].
Proof. intros name [a|]; source. Qed.
Theorem python_import_source : forall module alias out, py_import_stmt (module, alias) out =
  with_quote (py_table alias) $"*out =>
                import $module$(if let Some(a) = alias => $[' ']as $a)
            " [($"module", VItemStr module)] (push out).
Proof. intros module [a|] out; source. Qed.
Definition py_for (els : list (tokens py_import)) : table py_import :=
  mk_table [] [] [($"i in imports", fun _ => map (fun t e => ($"i", VTokens t) :: e) els)] [] [] [].
Lemma join_loop_cons {LI E} (body join : E * tokens LI -> E * tokens LI) b b' bs s :
  join_loop body join (b :: b' :: bs) s = join_loop body join (b' :: bs) (join (body (b (fst s), snd s))).
Proof. reflexivity. Qed.
Theorem python_from_source : forall module names out, py_from_stmt (module, names) out =
  let imports := map py_element names in
  if length imports =? 1 then
    with_quote (values [($"imports . into_iter ( ) . next ( )", VOption (option_map VTokens (hd_error imports)))])
      $"*out =>
                    from $module import $(imports.into_iter().next())
                " [($"module", VItemStr module)] (push out)
  else
    with_quote (py_for imports) $"*out =>
                    from $module import $(for i in imports join (, ) => $i)
                " [($"module", VItemStr module)] (push out).
Proof.
  intros module names out. cbv zeta. unfold py_from_stmt. generalize (map py_element names). intros els.
  destruct (length els =? 1).
  - destruct els; source.
  - unfold with_quote. set (lhs := py_joined _ _).
    set (e := [($"module", VItemStr module)]).
    set (body := fun s : environment py_import * tokens py_import =>
      (fst s, append (lookup (VStr []) $"i" (fst s)) (snd s))).
    set (sep := fun s : environment py_import * tokens py_import => (fst s, snd s |> st $"," |> space)).
    transitivity (snd (join_loop body sep (map (fun t e => ($"i", VTokens t) :: e) els)
      (e, push out |> st $"from" |> space |> istr module |> space |> st $"import" |> space))); [|source].
    subst lhs. generalize (push out |> st $"from" |> space |> istr module |> space |> st $"import" |> space).
    generalize e. induction els as [|x els IH]; intros e' t; [reflexivity|]. destruct els as [|y els]; [reflexivity|].
    cbn [map]. rewrite join_loop_cons. exact (IH (($"i", VTokens x) :: e') (append (VTokens x) t |> st $"," |> space)).
Qed.

(** ** JavaScript: src/lang/js.rs:447-492 and 508-514 *)
(** The code in the second quote. *)
Definition js_bindings_code : str := $"{
                    if let Some(default) = module.default_import {
                        tokens.append(ItemStr::from(default));

                        if !module.set.is_empty() {
                            tokens.append("","");
                            tokens.space();
                        }
                    }

                    if !module.set.is_empty() {
                        tokens.append(""{"");

                        let mut it = module.set.iter().peekable();

                        while let Some(el) = it.next() {
                            match *el {
                                ImportedElement::Plain(name) => {
                                    tokens.append(name);
                                },
                                ImportedElement::Aliased(name, alias) => {
                                    quote_in!(*tokens => $name as $alias);
                                }
                            }

                            if it.peek().is_some() {
                                tokens.append("","");
                                tokens.space();
                            }
                        }

                        tokens.append(""}"");
                    }
                }".
(** What the code in the quotes does, as calls. *)
Definition js_element_calls (el : js_element) : list (call js_import) :=
  match el with
  | EPlain name => [CItem (Literal name)]
  | EAliased name alias =>
      [CItem (Literal name); CSpace; CItem (Literal (Static $"as")); CSpace; CItem (Literal alias)]
  end.
Fixpoint js_elements_calls (els : list js_element) : list (call js_import) :=
  match els with
  | [] => []
  | [el] => js_element_calls el
  | el :: els' => js_element_calls el ++ [CItem (Literal (Box $",")); CSpace] ++ js_elements_calls els'
  end.
Definition js_bindings_calls (r : js_resolved) : list (call js_import) :=
  match r_default r with
  | Some default =>
      CItem (Literal default) ::
      match r_set r with [] => [] | _ => [CItem (Literal (Box $",")); CSpace] end
  | None => []
  end ++
  match r_set r with
  | [] => []
  | els => [CItem (Literal (Box $"{"))] ++ js_elements_calls els ++ [CItem (Literal (Box $"}"))]
  end.
Lemma run_app {LI} (a b : list (call LI)) t : run (a ++ b) t = run b (run a t).
Proof. apply fold_left_app. Qed.
Lemma js_element_run : forall el t, run (js_element_calls el) t = js_element_tokens el t.
Proof. intros [n|n a] t; reflexivity. Qed.
Lemma js_elements_run : forall els t, run (js_elements_calls els) t = js_elements els t.
Proof.
  induction els as [|el els IH]; intros t; [reflexivity|]. destruct els as [|el' els]; [apply js_element_run|].
  cbn [js_elements_calls js_elements] in *. rewrite !run_app, IH, js_element_run. reflexivity.
Qed.
Lemma js_bindings_run : forall r t, run (js_bindings_calls r) t = js_bindings r t.
Proof.
  intros [[d|] els] t; unfold js_bindings_calls, js_bindings; cbn [r_default r_set]; destruct els as [|el els]; try reflexivity;
    rewrite !run_app, js_elements_run; reflexivity.
Qed.
Theorem js_element_source : forall name alias t, js_element_tokens (EAliased name alias) t =
  with_quote no_table $"*tokens => $name as $alias" [($"name", VItemStr name); ($"alias", VItemStr alias)] t.
Proof. intros name alias t. source. Qed.

(** The match in [render_from]; [relative] is [RelativePath::relative]. *)
Definition js_from_table (relative : path -> path -> path) (module_path : option path) (m : js_module) : table js_import :=
  mk_table
    [($"quoted ( from )", fun _ => match m with MGlobal from => VQuoted (VItemStr from) | _ => VStr [] end);
     ($"quoted ( path . as_str ( ) )", fun _ => match m with MPath p => VQuoted (VStr (path_text p)) | _ => VStr [] end);
     ($"quoted ( module_path . relative ( path ) . as_str ( ) )", fun _ =>
        match m, module_path with MPath p, Some mp => VQuoted (VStr (path_text (relative mp p))) | _, _ => VStr [] end)]
    [] []
    [($"( module_path , module )", fun e =>
        (match module_path, m with _, MGlobal _ => 0 | None, MPath _ => 1 | Some _, MPath _ => 2 end, e))] [] [].
Theorem js_from_source : forall relative module_path m t, js_render_from relative module_path m t =
  with_quote (js_from_table relative module_path m) $"*t =>
                $(match (module_path, module) {
                    (_, Module::Global(from)) => $(quoted(from)),
                    (None, Module::Path(path)) => $(quoted(path.as_str())),
                    (Some(module_path), Module::Path(path)) => $(quoted(module_path.relative(path).as_str())),
                })
            " [] t.
Proof. intros relative [mp|] [p|s] t; source. Qed.

Definition js_from_calls (relative : path -> path -> path) (module_path : option path) (m : js_module) : list (call js_import) :=
  [CItem (OpenQuote false);
   CItem (Literal match module_path, m with
                  | _, MGlobal from => from
                  | None, MPath p => Box (path_text p)
                  | Some mp, MPath p => Box (path_text (relative mp p))
                  end);
   CItem CloseQuote].
Lemma js_from_run : forall relative mp m t, run (js_from_calls relative mp m) t = js_render_from relative mp m t.
Proof. intros relative [mp|] [p|s] t; reflexivity. Qed.
Theorem js_source : forall relative tokens module_path out, js_imports relative tokens module_path out =
  match js_collect (walk_imports tokens) with
  | ([], []) => out
  | (modules, wildcards) =>
      let from name code m := (name ++ $" => " ++ key code, js_from_calls relative module_path m) in
      let out := for_each (fun '(module, name) out =>
        with_quote (codes [from $"t" $"render_from(t, config.module_path.as_deref(), module)" module]) $"*out =>
                import * as $name from $(ref t => render_from(t, config.module_path.as_deref(), module));
            " [($"name", VItemStr name)] (push out)) wildcards out in
      let out := for_each (fun '(name, module) out =>
        with_quote (codes [($"tokens => " ++ key js_bindings_code, js_bindings_calls module);
                           from $"t" $"render_from(t, config.module_path.as_deref(), name)" name])
          ($"*out =>
                import $(ref tokens => " ++ js_bindings_code ++ $") from $(ref t => render_from(t, config.module_path.as_deref(), name));
            ") [] (push out)) modules out in
      line out
  end.
Proof.
  intros relative tokens module_path out. unfold js_imports. destruct (js_collect _) as [modules wildcards]. cbv zeta.
  assert (W : forall module name (out : Tokens.tokens js_import),
    with_quote (codes [($"t" ++ $" => " ++ key $"render_from(t, config.module_path.as_deref(), module)", js_from_calls relative module_path module)])
         $"*out =>
                import * as $name from $(ref t => render_from(t, config.module_path.as_deref(), module));
            " [($"name", VItemStr name)] (push out) =
    out |> push |> st $"import" |> space |> st $"*" |> space |> st $"as"
            |> space |> istr name |> space |> st $"from" |> space
            |> run (js_from_calls relative module_path module) |> st $";") by (intros; source).
  assert (M : forall name module (out : Tokens.tokens js_import),
    with_quote (codes [($"tokens => " ++ key js_bindings_code, js_bindings_calls module);
                           ($"t" ++ $" => " ++ key $"render_from(t, config.module_path.as_deref(), name)", js_from_calls relative module_path name)])
          ($"*out =>
                import $(ref tokens => " ++ js_bindings_code ++ $") from $(ref t => render_from(t, config.module_path.as_deref(), name));
            ") [] (push out) =
    out |> push |> st $"import" |> space |> run (js_bindings_calls module) |> space
            |> st $"from" |> space |> run (js_from_calls relative module_path name) |> st $";").
  { intros name module t. generalize (js_bindings_calls module). intros cs. source. }
  pose proof (for_each_ext
    (fun '(module, name) (out : Tokens.tokens js_import) =>
        out |> push |> st $"import" |> space |> st $"*" |> space |> st $"as"
            |> space |> istr name |> space |> st $"from" |> space
            |> js_render_from relative module_path module |> st $";")
    (fun '(module, name) (out : Tokens.tokens js_import) =>
       with_quote (codes [($"t" ++ $" => " ++ key $"render_from(t, config.module_path.as_deref(), module)", js_from_calls relative module_path module)])
         $"*out =>
                import * as $name from $(ref t => render_from(t, config.module_path.as_deref(), module));
            " [($"name", VItemStr name)] (push out))) as A.
  pose proof (for_each_ext
    (fun '(name, module) (out : Tokens.tokens js_import) =>
        out |> push |> st $"import" |> space |> js_bindings module |> space
            |> st $"from" |> space |> js_render_from relative module_path name |> st $";")
    (fun '(name, module) (out : Tokens.tokens js_import) =>
        with_quote (codes [($"tokens => " ++ key js_bindings_code, js_bindings_calls module);
                           ($"t" ++ $" => " ++ key $"render_from(t, config.module_path.as_deref(), name)", js_from_calls relative module_path name)])
          ($"*out =>
                import $(ref tokens => " ++ js_bindings_code ++ $") from $(ref t => render_from(t, config.module_path.as_deref(), name));
            ") [] (push out))) as B.
  rewrite A, B.
  - destruct modules, wildcards; reflexivity.
  - intros [name module] t. rewrite M, js_bindings_run, js_from_run. reflexivity.
  - intros [module name] t. rewrite W, js_from_run. reflexivity.
Qed.

(** ** Rust: src/lang/rust.rs:473-501 and 575-594 *)
Theorem rust_render_source : forall r t, rust_render_item r t =
  match r with
  | SelfImport => with_quote no_table $"*out => self" [] t
  | SelfAlias alias => with_quote no_table $"*out => self as $alias" [($"alias", VItemStr alias)] t
  | RName name (Some alias) =>
      with_quote no_table $"*out => $name as $alias" [($"name", VItemStr name); ($"alias", VItemStr alias)] t
  | RName name None => with_quote no_table $"*out => $name" [($"name", VItemStr name)] t
  end.
Proof. intros [|a|n [a|]] t; source. Qed.
Definition rust_render_calls (r : rust_render) : list (call rust_import) :=
  let as_ alias := [CSpace; CItem (Literal (Static $"as")); CSpace; CItem (Literal alias)] in
  match r with
  | SelfImport => [CItem (Literal (Static $"self"))]
  | SelfAlias alias => CItem (Literal (Static $"self")) :: as_ alias
  | RName name (Some alias) => CItem (Literal name) :: as_ alias
  | RName name None => [CItem (Literal name)]
  end.
Lemma rust_render_run : forall r t, run (rust_render_calls r) t = rust_render_item r t.
Proof. intros [|a|n [a|]] t; reflexivity. Qed.
(** The items after the first. *)
Theorem rust_next_source : forall r t, t |> st $"," |> space |> rust_render_item r =
  with_quote (codes [($"o => second . render ( o )", rust_render_calls r)])
    $"*o => , $(ref o => second.render(o))" [] t /\
  t |> st $"," |> space |> rust_render_item r =
  with_quote (codes [($"o => item . render ( o )", rust_render_calls r)])
    $"*o => , $(ref o => item.render(o))" [] t.
Proof. intros [|a|n [a|]] t; split; source. Qed.
Definition rust_group_code : str := $"
                            first.render(o);
                            quote_in!(*o => , $(ref o => second.render(o)));

                            for item in render {
                                quote_in!(*o => , $(ref o => item.render(o)));
                            }
                        ".
Definition rust_group_calls (first second : rust_render) (more : list rust_render) : list (call rust_import) :=
  rust_render_calls first ++
  flat_map (fun r => CItem (Literal (Static $",")) :: CSpace :: rust_render_calls r) (second :: more).
Theorem rust_source : forall out has_any name u, rust_use_stmt (out, has_any) (name, u) =
  match rust_iter name u with
  | [] => (out, has_any)
  | first :: second :: more =>
      (with_quote (codes [($"o => " ++ key rust_group_code, rust_group_calls first second more)])
         ($"*out =>
                        use $m::{$(ref o =>" ++ rust_group_code ++ $")};
                    ") [($"m", VItemStr name)] (push out), true)
  | [first] =>
      (match first with
       | SelfImport => with_quote no_table $"*out => use $m;" [($"m", VItemStr name)]
       | SelfAlias alias =>
           with_quote no_table $"*out => use $m as $alias;" [($"m", VItemStr name); ($"alias", VItemStr alias)]
       | RName n (Some alias) =>
           with_quote no_table $"*out => use $m::$name as $alias;"
             [($"m", VItemStr name); ($"name", VItemStr n); ($"alias", VItemStr alias)]
       | RName n None =>
           with_quote no_table $"*out => use $m::$name;" [($"m", VItemStr name); ($"name", VItemStr n)]
       end (push out), true)
  end.
Proof.
  intros out has_any name u. unfold rust_use_stmt. destruct (rust_iter name u) as [|first [|second more]]; [reflexivity| |].
  - apply (f_equal (fun t => (t, true))). destruct first as [|a|n [a|]]; source.
  - apply (f_equal (fun t => (t, true))).
    transitivity (push out |> st $"use" |> space |> istr name |> st $"::{" |> run (rust_group_calls first second more) |> st $"};").
    + unfold rust_group_calls. rewrite run_app, rust_render_run. cbn [flat_map]. rewrite run_app.
      apply (f_equal (st $"};")).
      change (CItem (Literal (Static $",")) :: CSpace :: rust_render_calls second) with ([CItem (Literal (Static $",")); CSpace] ++ rust_render_calls second).
      rewrite run_app, rust_render_run.
      match goal with |- for_each _ _ ?x = run _ ?y => change y with x; generalize x end.
      induction more as [|r more IH]; intros t; [reflexivity|]. unfold for_each. cbn [fold_left flat_map]. fold (@for_each rust_import rust_render).
      rewrite run_app.
      change (CItem (Literal (Static $",")) :: CSpace :: rust_render_calls r) with ([CItem (Literal (Static $",")); CSpace] ++ rust_render_calls r).
      rewrite run_app, rust_render_run. apply IH.
    + generalize (rust_group_calls first second more). intros cs. source.
Qed.
