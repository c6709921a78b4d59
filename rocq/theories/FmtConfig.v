(** * Making configurations: src/fmt/config.rs and the [Config] types of the
    languages. *)
From Verif Require Import LangBase LangCsharp LangGo LangJava LangJs LangNix LangRust.

(** src/fmt/config.rs:63-69 *)
Definition with_indentation (k : indentation_kind) (c : config) : config := mk_config k (c_newline c).
(** src/fmt/config.rs:71-74 *)
Definition with_newline (nl : str) (c : config) : config := mk_config (c_indentation c) nl.

(** The calls on a [fmt::Config]. *)
Inductive setting : Type :=
| SetIndentation (k : indentation_kind)
| SetNewline (nl : str).
(** One call: src/fmt/config.rs:63-74 *)
Definition apply_setting (c : config) (s : setting) : config :=
  match s with
  | SetIndentation k => with_indentation k c
  | SetNewline nl => with_newline nl c
  end.
(** Calls one after another on [Config::from_lang] (src/fmt/config.rs:53-61). *)
Definition configured {LI C F} (L : lang_def LI C F) (ss : list setting) : config :=
  fold_left apply_setting ss (config_from_lang L).

(** src/lang/rust.rs:156-158; the argument is consumed, other fields there are
    none. *)
Definition rust_with_default_import (mode : rust_mode) (_ : rust_mode) : rust_mode := mode.
(** src/lang/nix.rs:115-117 *)
Definition nix_with_scoped (scoped : bool) (_ : bool) : bool := scoped.
(** src/lang/js.rs:240-247 *)
Definition js_with_module_path (p : path) (_ : option path) : option path := Some p.
(** src/lang/csharp/mod.rs:137-144 *)
Definition cs_with_namespace (ns : item_str) (_ : option item_str) : option item_str := Some ns.
(** src/lang/go.rs:128-132 *)
Definition go_with_package (p : item_str) (_ : option item_str) : option item_str := Some p.
(** src/lang/java/mod.rs:151-158 *)
Definition java_with_package (p : item_str) (_ : option item_str) : option item_str := Some p.
