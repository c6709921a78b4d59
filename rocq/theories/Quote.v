(** * Quoting: the [write_quoted] methods of the languages.

    Each function gives the text written for one character; the methods loop
    over [input.chars()].  The pieces a single [write!] emits are taken
    together, see [write_all_strs] in [Fmt.v]. *)
From Verif Require Import Str.

(** [\] followed by the given text. *)
Definition esc (s : str) : str := 92%N :: s.

(** src/lang/mod.rs:182-220 ([c_family_write_quoted]), used by C, C#, Go, Nix
    and Python. *)
Definition c_family_char (c : N) : str :=
  if N.eqb c 7 then esc $"a"
  else if N.eqb c 8 then esc $"b"
  else if N.eqb c 18 then esc $"f"          (* '\u{0012}' *)
  else if N.eqb c 10 then esc $"n"
  else if N.eqb c 13 then esc $"r"
  else if N.eqb c 9 then esc $"t"
  else if N.eqb c 17 then esc $"v"          (* '\u{0011}' *)
  else if N.eqb c 39 then esc [39%N]
  else if N.eqb c 34 then esc [34%N]
  else if N.eqb c 92 then esc [92%N]
  else if N.eqb c 32 then [32%N]
  else if is_ascii c then
    if negb (is_control c) then [c] else esc $"x" ++ hex_pad 2 c
  else if (c <? 65536)%N then esc $"u" ++ hex_pad 4 c
  else esc $"U" ++ hex_pad 8 c.
(** src/lang/mod.rs:182-220 *)
Definition c_family_write_quoted (input : str) : list str :=
  map c_family_char input.

(** src/lang/rust.rs:60-89 *)
Definition rust_char (c : N) : str :=
  if N.eqb c 10 then esc $"n"
  else if N.eqb c 13 then esc $"r"
  else if N.eqb c 9 then esc $"t"
  else if N.eqb c 92 then esc [92%N]
  else if N.eqb c 0 then esc $"0"
  else if N.eqb c 34 then esc [34%N]
  else if negb (is_control c) then [c]
  else if (c <? 128)%N then esc $"x" ++ hex_pad 2 c
  else esc $"u{" ++ hex_pad 4 c ++ $"}".
(** src/lang/rust.rs:60-89 *)
Definition rust_write_quoted (input : str) : list str := map rust_char input.

(** src/lang/js.rs:124-158 *)
Definition js_char (c : N) : str :=
  if N.eqb c 8 then esc $"b"
  else if N.eqb c 18 then esc $"f"          (* '\u{0012}' *)
  else if N.eqb c 10 then esc $"n"
  else if N.eqb c 13 then esc $"r"
  else if N.eqb c 9 then esc $"t"
  else if N.eqb c 17 then esc $"v"          (* '\u{0011}' *)
  else if N.eqb c 0 then esc $"0"
  else if N.eqb c 34 then esc [34%N]
  else if N.eqb c 92 then esc [92%N]
  else if negb (is_control c) then [c]
  else if (c <? 256)%N then esc $"x" ++ hex_pad 2 c
  else esc $"u{" ++ hex c ++ $"}".
(** src/lang/js.rs:124-158 *)
Definition js_write_quoted (input : str) : list str := map js_char input.

(** [\uXXXX] for each UTF-16 code unit. *)
Definition utf16_escapes (c : N) : str :=
  flat_map (fun u => esc $"u" ++ hex_pad 4 u) (utf16_char c).

(** src/lang/dart/mod.rs:94-130 *)
Definition dart_char (c : N) : str :=
  if N.eqb c 8 then esc $"b"
  else if N.eqb c 18 then esc $"f"          (* '\u{0012}' *)
  else if N.eqb c 10 then esc $"n"
  else if N.eqb c 13 then esc $"r"
  else if N.eqb c 9 then esc $"t"
  else if N.eqb c 17 then esc $"v"          (* '\u{0011}' *)
  else if N.eqb c 34 then esc [34%N]
  else if N.eqb c 92 then esc [92%N]
  else if N.eqb c 36 then esc $"$"
  else if negb (is_control c) then [c]
  else if (c <? 256)%N then esc $"x" ++ hex_pad 2 c
  else utf16_escapes c.
(** src/lang/dart/mod.rs:94-130 *)
Definition dart_write_quoted (input : str) : list str := map dart_char input.

(** src/lang/java/mod.rs:41-65 *)
Definition java_char (c : N) : str :=
  if N.eqb c 9 then esc $"t"
  else if N.eqb c 7 then esc $"b"           (* '\u{0007}' *)
  else if N.eqb c 10 then esc $"n"
  else if N.eqb c 13 then esc $"r"
  else if N.eqb c 20 then esc $"f"          (* '\u{0014}' *)
  else if N.eqb c 39 then esc [39%N]
  else if N.eqb c 34 then esc [34%N]
  else if N.eqb c 92 then esc [92%N]
  else if N.eqb c 32 then [32%N]
  else if is_ascii c && negb (is_control c) then [c]
  else utf16_escapes c.
(** src/lang/java/mod.rs:41-65 *)
Definition java_write_quoted (input : str) : list str := map java_char input.

(** src/lang/swift.rs:34-54 *)
Definition swift_char (c : N) : str :=
  if N.eqb c 0 then esc $"0"
  else if N.eqb c 92 then esc [92%N]
  else if N.eqb c 9 then esc $"t"
  else if N.eqb c 10 then esc $"n"
  else if N.eqb c 13 then esc $"r"
  else if N.eqb c 39 then esc [39%N]
  else if N.eqb c 34 then esc [34%N]
  else if negb (is_control c) then [c]
  else esc $"u{" ++ hex c ++ $"}".
(** src/lang/swift.rs:34-54 *)
Definition swift_write_quoted (input : str) : list str := map swift_char input.
