(** * Specification: files from quoted programs.

    A program is quoted, with imports and constants interpolated; what file is
    meant. *)
From Verif Require Import Str Tokens Values Fmt SpecFmt SpecLang Macro SpecMacro SpecWords SpecReread SpecFile
  LangC LangSwift LangGo LangDart LangJava LangCsharp LangJs SpecJs LangPython SpecPython.

(** What is at a place of the source: a word of the program, a string literal with
    its value, an interpolation of text, or one of an import. *)
Inductive bit (LI : Type) : Type :=
| Plain
| Quoted (v : str)
| Constant (v : str)
| Imported (i : LI).
Arguments Plain {LI}. Arguments Quoted {LI}. Arguments Constant {LI}. Arguments Imported {LI}.

Section Whole.
Context {LI E : Type}.
(** The tokens of a quote are this program; its interpolations are expressions
    that yield the texts and imports, one after the other. *)
Fixpoint is_source (ts : list (cursor * leaf LI E)) (e : E) (l : list (cursor * (str * bit LI))) (e' : E) : Prop :=
  match ts, l with
  | [], [] => e' = e
  | (c, x) :: ts', (c', (w, b)) :: l' => c = c' /\
      match b with
      | Plain => x = LText w /\ is_source ts' e l' e'
      | Quoted v => x = LOther (QQuoted c v) /\ is_source ts' e l' e'
      | Constant v => v <> [] /\ exists code e1,
          x = LOther (QEval c code) /\ code e = (VStr v, e1) /\ is_source ts' e1 l' e'
      | Imported i => exists code e1,
          x = LOther (QEval c code) /\ code e = (VLang i, e1) /\ is_source ts' e1 l' e'
      end
  | _, _ => False
  end.
(** The imports of the program. *)
Definition imports (l : list (cursor * (str * bit LI))) : list LI :=
  flat_map (fun x => match snd (snd x) with Imported i => [i] | _ => [] end) l.

(** What is in the place of a word. *)
Definition in_file (literal : str -> str) (reference : LI -> str) (x : str * bit LI) : str :=
  match snd x with
  | Plain => fst x
  | Quoted v => literal v
  | Constant v => v
  | Imported i => reference i
  end.
(** The text [body] is the source [s] with white space in the same places, each
    string literal replaced by the literal of the language, each interpolated text
    by itself and each import by its reference. *)
Definition is_code (literal : str -> str) (reference : LI -> str) (l : list (cursor * (str * bit LI))) (s body : str) : Prop :=
  exists b s1, s = b ++ s1 /\ all_white b /\
  respaced (map (fun x => (fst (snd x), in_file literal reference (snd x))) l) s1 body.

(** A quote of the program [l], whose source text is [s] and starts at [p]. *)
Definition quotes (qs : list (quoted_item LI E)) (e : E) (p : pos) (s : str) (l : list (cursor * (str * bit LI))) (e' : E) : Prop :=
  written p s (map (fun x => (fst x, fst (snd x))) l) /\ is_source (all_tokens qs) e l e' /\ starts_fit (map fst l).

(** The file of the stream [t] has the lines [header], one after the other, an empty
    line if there are any, and the program. *)
Definition gives_file {C F} (L : lang_def LI C F) cfg (c : C) (t : tokens LI)
    (s : str) (l : list (cursor * (str * bit LI))) (header : list str) (literal : str -> str) (reference : LI -> str) : Prop :=
  exists body, file_renders L cfg c t (file_text (c_newline cfg) header body) /\ is_code literal reference l s body.
End Whole.

(** What the headers list for these imports. *)
Definition c_listed (us : list c_import) (keys : list (item_str * bool)) : Prop :=
  sorted (pair_before name_before bool_before) keys /\
  (forall path system, In (path, system) keys <-> exists i, In i us /\ c_path i = path /\ c_system i = system).
Definition swift_listed (us : list swift_import) (keys : list item_str) : Prop :=
  sorted name_before keys /\ (forall m, In m keys <-> exists i, In i us /\ sw_module i = m).
Definition go_listed (us : list go_import) (keys : list item_str) : Prop :=
  sorted name_before keys /\ (forall m, In m keys <-> exists i, In i us /\ go_module i = m).
Definition dart_listed (us : list dart_import) (keys : list (item_str * option item_str)) : Prop :=
  sorted (pair_before name_before (opt_before name_before)) keys /\
  (forall path alias, In (path, alias) keys <->
     content path <> $"dart:core" /\ exists i, In i us /\ da_path i = path /\ da_alias i = alias).
Definition java_listed (package : option item_str) (us : list java_import) (keys : list (item_str * item_str)) : Prop :=
  sorted (pair_before name_before name_before) keys /\
  (forall k, In k keys <->
     first_named (pair_before name_before name_before) (fun k => ~ java_own package (fst k))
       (fun k => content (snd k)) (fun k => exists i, In i us /\ k = (ja_package i, ja_name i)) k).
Definition csharp_listed (us : list cs_import) (types : list (str * str)) (usings : list str) : Prop :=
  (forall k, In k types <->
     first_named (pair_before text_before text_before) (fun _ => True) snd
       (fun k => exists i, In i us /\ k = (content (cs_namespace i), content (cs_name i))) k) /\
  sorted text_before usings /\ (forall n, In n usings <-> exists name, In (n, name) types).
Definition js_listed (us : list js_import) wildcards (modules : list (js_module * (option item_str * list js_element))) : Prop :=
  sorted (pair_before module_before name_before) wildcards /\
  (forall m n, In (m, n) wildcards <->
     exists i, In i us /\ js_import_kind i = KWildcard /\ js_import_module i = m /\ js_name i = n) /\
  sorted module_before (map fst modules) /\
  (forall m, In m (map fst modules) <->
     exists i, In i us /\ js_import_kind i <> KWildcard /\ js_import_module i = m) /\
  (forall m default elements, In (m, (default, elements)) modules ->
     sorted element_before elements /\
     (forall e, In e elements <->
        exists i, In i us /\ js_import_kind i = KNamed /\ js_import_module i = m /\ js_asks i = e) /\
     match default with
     | Some d => first_default us m d
     | None => forall i, In i us -> js_import_kind i = KDefault -> js_import_module i <> m
     end).
Definition python_listed (us : list py_import) (froms : list (item_str * list (item_str * option item_str))) modules : Prop :=
  sorted name_before (map fst froms) /\
  (forall m names, In (m, names) froms ->
     names <> [] /\ sorted (pair_before name_before (opt_before name_before)) names) /\
  (forall m n a, (exists names, In (m, names) froms /\ In (n, a) names) <-> In (PyImport (Unqualified m) n a) us) /\
  sorted (pair_before name_before (opt_before name_before)) modules /\
  (forall m a, In (m, a) modules <->
     (exists n al, In (PyImport (Qualified m a) n al) us) \/ In (PyModule m a) us).

(** Names are not empty; in Go, nor is the last element of a path. *)
Definition c_words (i : c_import) : Prop := named (c_path i) /\ named (c_item i).
Definition swift_words (i : swift_import) : Prop := named (sw_module i) /\ named (sw_name i).
Definition go_words (i : go_import) : Prop :=
  named (go_module i) /\ named (go_name i) /\ ~ last_segment $"/" (content (go_module i)) [].
Definition dart_words (i : dart_import) : Prop := named (da_name i) /\ opt_named (da_alias i).
Definition java_words (i : java_import) : Prop := named (ja_package i) /\ named (ja_name i).
Definition csharp_words (i : cs_import) : Prop := named (cs_namespace i) /\ named (cs_name i).
Definition js_words (i : js_import) : Prop := named (js_name i) /\ opt_named (js_alias i).
Definition python_words (i : py_import) : Prop :=
  match i with
  | PyImport (Unqualified m) n a => named m /\ named n /\ opt_named a
  | PyImport (Qualified m ma) n a => named m /\ opt_named ma /\ named n /\ opt_named a
  | PyModule m a => named m /\ opt_named a
  end.
