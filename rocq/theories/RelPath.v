(** * Relative paths: [RelativePath::relative].

    The crate relative-path is a dependency (Cargo.toml:24, used at
    src/lang/js.rs:60 and 513); its source is not in /repo.  This models version
    1.x of it as published, on the components of paths.  Nothing but the
    properties of C67 depends on it: everything else about JavaScript holds for
    every function in its place. *)
From Verif Require Import LangBase LangJs.

(** [relative_traversal]: drops [.], resolves [..] where possible.  The buffer
    is kept in reverse. *)
Fixpoint traverse (buf : path) (cs : path) : path :=
  match cs with
  | [] => buf
  | CurDir :: cs' => traverse buf cs'
  | ParentDir :: cs' =>
      match buf with
      | ParentDir :: _ | [] => traverse (ParentDir :: buf) cs'
      | _ :: buf' => traverse buf' cs'
      end
  | Normal name :: cs' => traverse (Normal name :: buf) cs'
  end.

(** Derived [PartialEq] of the components. *)
Definition component_eqb (a b : component) : bool :=
  match a, b with
  | CurDir, CurDir | ParentDir, ParentDir => true
  | Normal x, Normal y => str_eqb x y
  | _, _ => false
  end.
(** The loop that strips a common prefix. *)
Fixpoint strip (from to : path) : path * path :=
  match from, to with
  | f :: from', t :: to' => if component_eqb f t then strip from' to' else (from, to)
  | _, _ => (from, to)
  end.

(** [RelativePath::relative] *)
Definition relative_path (self path : path) : LangJs.path :=
  let from := rev (traverse [] self) in
  let to := rev (traverse [] path) in
  let '(from, to) := strip from to in
  match from with
  | ParentDir :: _ => []
  | _ => map (fun _ => ParentDir) from ++ to
  end.
