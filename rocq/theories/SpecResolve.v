(** * Specification: what names denote in Go, Dart and Swift. *)
From Verif Require Import Str SpecLang.

(** ** Go *)

(** A qualified name [q.Name] denotes [Name] of the package at a path if the
    package there is called [q] and exactly one of the imports has a package of
    that name: two imports of one name in a file are an error (Go: Import
    declarations).  [package_of]: the name in the package clause at a path. *)
Definition go_denotes (package_of : str -> str) (imports : list str) (w path name : str) : Prop :=
  w = package_of path ++ $"." ++ name /\
  exists before after, imports = before ++ path :: after /\
    forall p, In p (before ++ after) -> package_of p <> package_of path.

(** ** Dart *)

Definition dart_system (path : str) : Prop := exists rest, path = $"dart:" ++ rest.
(** A library is visible under a prefix, or without, if an import says so;
    [dart:core] is visible without prefix as long as it is not imported. *)
Definition dart_visible (imports : list (str * option str)) (prefix : option str) (path : str) : Prop :=
  In (path, prefix) imports \/
  prefix = None /\ path = $"dart:core" /\ forall p, ~ In ($"dart:core", p) imports.
(** [Name], or [prefix.Name], denotes [Name] of a library if that is visible
    and declares it, and no other visible library does; declarations of system
    libraries give way to those of others.  Reexports, [show] and [hide] are
    not considered.  [declared]: path and name. *)
Definition dart_denotes (declared : str -> str -> Prop) (imports : list (str * option str))
    (prefix : option str) (name path : str) : Prop :=
  dart_visible imports prefix path /\ declared path name /\
  forall p, dart_visible imports prefix p -> declared p name ->
    p = path \/ dart_system p /\ ~ dart_system path.
(** The text of a reference. *)
Definition dart_written (prefix : option str) (name : str) : str :=
  match prefix with Some p => p ++ $"." | None => [] end ++ name.

(** ** Swift *)

(** A name denotes a declaration of an imported module if no other imported
    module declares it.  [declared]: module and name. *)
Definition swift_denotes (declared : str -> str -> Prop) (imports : list str) (name module : str) : Prop :=
  In module imports /\ declared module name /\
  forall m, In m imports -> declared m name -> m = module.
