(** * Specification: the lines of import headers.

    What each line looks like, as text.  A string literal is written as the
    language's quoting does; the properties of those literals are C22-C35. *)
From Verif Require Import Tokens Fmt LangJava LangCsharp.

Section Lines.
(** The literal for a text: quotes around the quoted text. *)
Context (lit : str -> str).

(** C: [#include <path>] or [#include "path"]. *)
Definition c_line (k : item_str * bool) : str :=
  let '(path, system) := k in
  if system : bool then $"#include <" ++ content path ++ $">"
  else $"#include " ++ lit (content path).

(** Swift: [import Module]. *)
Definition swift_line (m : item_str) : str := $"import " ++ content m.

(** Go: [import "module"], [package name]. *)
Definition go_line (m : item_str) : str := $"import " ++ lit (content m).
Definition go_package_line (p : item_str) : str := $"package " ++ content p.

(** Dart: [import "path";] or [import "path" as alias;]. *)
Definition dart_line (k : item_str * option item_str) : str :=
  let '(path, alias) := k in
  $"import " ++ lit (content path) ++
  match alias with Some a => $" as " ++ content a | None => [] end ++ $";".

(** Java: [import package.Name;], [package name;]. *)
Definition java_line (k : item_str * item_str) : str :=
  $"import " ++ content (fst k) ++ $"." ++ content (snd k) ++ $";".
Definition java_package_line (p : item_str) : str := $"package " ++ content p ++ $";".

(** C#: [using Namespace;]. *)
Definition cs_line (n : str) : str := $"using " ++ n ++ $";".
End Lines.

(** Package line, import lines, separated by a blank line when both exist. *)
Definition package_then (package : option str) (imports : list str) : list str :=
  match package, imports with
  | None, _ => imports
  | Some p, [] => [p]
  | Some p, _ => p :: [] :: imports
  end.

(** The text names have: not empty. *)
Definition named (s : item_str) : Prop := content s <> [].
Definition opt_named (o : option item_str) : Prop :=
  match o with Some s => named s | None => True end.

(** ** Java names *)

(** Packages that need no import: [java.lang] and the file's own. *)
Definition java_own (package : option item_str) (p : item_str) : Prop :=
  content p = $"java.lang" \/ option_map content package = Some (content p).

(** A reference as written: [Name] or [package.Name]. *)
Inductive written : Type :=
| Simple (name : str)
| Dotted (package name : str).
Definition written_text (w : written) : str :=
  match w with Simple n => n | Dotted p n => p ++ $"." ++ n end.

(** How a class is written: by its simple name if it needs no import or is
    imported, qualified if another class is imported by that name. *)
Definition java_written (package : option item_str) (imports : list (item_str * item_str))
    (i : java_import) (w : written) : Prop :=
  (w = Simple (content (ja_name i)) /\
     (java_own package (ja_package i) \/
      exists k, In k imports /\ content (fst k) = content (ja_package i) /\ content (snd k) = content (ja_name i))) \/
  (w = Dotted (content (ja_package i)) (content (ja_name i)) /\
     ~ java_own package (ja_package i) /\
     exists k, In k imports /\ content (fst k) <> content (ja_package i) /\ content (snd k) = content (ja_name i)).

(** The class a reference denotes (JLS 6.4.1, 6.5.5, 7.5): a qualified name
    names itself; a simple name is the one imported by a single-type import;
    otherwise the class of the file's package; otherwise that of [java.lang].
    [declared]: the classes that exist. *)
Definition java_denotes (declared : str -> str -> Prop) (package : option str)
    (imports : list (str * str)) (w : written) (p n : str) : Prop :=
  declared p n /\
  match w with
  | Dotted p' n' => p' = p /\ n' = n
  | Simple n' => n' = n /\
      (In (p, n) imports \/
       (forall q, ~ In (q, n) imports) /\
       (package = Some p \/
        (forall q, package = Some q -> ~ declared q n) /\ p = $"java.lang"))
  end.

(** ** C# names *)

(** How a type is written: qualified on request or if another type is imported
    by that name, otherwise by its simple name.  [imports]: namespace and name. *)
Definition cs_written (file_namespace : option item_str) (imports : list (str * str))
    (i : cs_import) (w : written) : Prop :=
  let ns := content (cs_namespace i) in let n := content (cs_name i) in
  (w = Dotted ns n /\
     (cs_qualified i = true \/
      option_map content file_namespace <> Some ns /\ exists m, In (m, n) imports /\ m <> ns)) \/
  (w = Simple n /\ cs_qualified i = false /\
     (option_map content file_namespace = Some ns \/ In (ns, n) imports)).

(** The type a simple name denotes (C# 7.8): the type of the file's namespace
    if it declares one; otherwise the type of that name in the namespaces
    imported by [using], which must be unique.  Nested namespaces are not
    considered.  [declared]: the types that exist. *)
Definition cs_denotes (declared : str -> str -> Prop) (file_namespace : option str)
    (usings : list str) (w : written) (ns n : str) : Prop :=
  declared ns n /\
  match w with
  | Dotted ns' n' => ns' = ns /\ n' = n
  | Simple n' => n' = n /\
      (file_namespace = Some ns \/
       (forall m, file_namespace = Some m -> ~ declared m n) /\
       In ns usings /\ forall m, In m usings -> declared m n -> m = ns)
  end.

(** ** Paths *)

(** What follows the last occurrence of a separator, everything if there is
    none. *)
Definition last_segment (sep path e : str) : Prop :=
  (exists p, path = p ++ sep ++ e /\
     forall p' e', path = p' ++ sep ++ e' -> length e <= length e') \/
  (path = e /\ forall p' e', path <> p' ++ sep ++ e').
