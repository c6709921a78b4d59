(** * Specification: the parts of whole files, in languages other than Rust. *)
From Verif Require Import Str SpecStr Tokens Values Macro SpecLang SpecLex SpecReread SpecParts PropsQuote
  LangCsharp LangDart LangGo LangJava LangJs LangSwift SpecJs.

(** The lines of the header, each followed by white space, and the program. *)
Definition file_parts (header : list (list stretch)) (body : list stretch) : list stretch :=
  flat_map (fun l => l ++ [Gap]) header ++ body.

(** The parts of the lines of headers. *)
Definition text_parts (line : str) : list stretch := [Chars line].
Definition go_parts (m : item_str) : list stretch := [Chars $"import "; StringOf (content m)].
Definition dart_parts (k : item_str * option item_str) : list stretch :=
  [Chars $"import "; StringOf (content (fst k));
   Chars (match snd k with Some a => $" as " ++ content a | None => [] end ++ $";")].
Section Js.
Context (from : js_module -> str).
Definition js_wildcard_parts (k : js_module * item_str) : list stretch :=
  [Chars ($"import * as " ++ content (snd k) ++ $" from "); StringOf (from (fst k)); Chars $";"].
Definition js_module_parts (k : js_module * (option item_str * list js_element)) : list stretch :=
  let '(m, (default, elements)) := k in
  [Chars ($"import " ++
     match default with Some d => content d | None => [] end ++
     match default, elements with Some _, _ :: _ => $", " | _, _ => [] end ++
     match elements with [] => [] | _ => $"{" ++ join $", " (map js_element_text elements) ++ $"}" end ++
     $" from "); StringOf (from m); Chars $";"].
End Js.
(** A line for the package in front of the others. *)
Definition package_parts (package : option (list stretch)) (imports : list (list stretch)) : list (list stretch) :=
  match package, imports with
  | None, _ => imports
  | Some p, [] => [p]
  | Some p, _ => p :: [] :: imports
  end.
(** The block of a C# namespace. *)
Definition csharp_block_parts (namespace : str) (inner : list stretch) : list stretch :=
  [Chars ($"namespace " ++ namespace ++ $" {"); Gap] ++ inner ++ [Gap; Chars $"}"].

(** The strings that a literal of the language can be relied on for (C23-C31), and
    what the languages store for strings. *)
Definition dart_good (s : str) : Prop := valid s /\ ~ In 17%N s /\ ~ In 18%N s.
Definition go_good (s : str) : Prop := dart_good s /\ ~ In 39%N s.
Definition js_good_string (s : str) : Prop := dart_good s /\ no_nul_digit s.
Definition csharp_good (s : str) : Prop := dart_good s /\ no_control_hex s.
Definition c_good_string (s : str) : Prop := csharp_good s /\ Forall (fun c => c < 128 \/ 160 <= c)%N s.
Definition java_good (s : str) : Prop := valid s /\ ~ In 7%N s /\ ~ In 20%N s.
Definition utf16 (s : str) : list N := flat_map utf16_units s.

(** In Java, texts to which the translation of Unicode escapes does nothing. *)
Definition untranslated (l : list stretch) : Prop :=
  forall s, In (Chars s) l -> Forall (fun c => c <> 92 /\ c < 65536)%N s.
