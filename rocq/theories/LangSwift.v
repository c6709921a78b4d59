(** * Swift.  Models src/lang/swift.rs. *)
From Verif Require Import LangBase.

(** src/lang/swift.rs:86-94 *)
Record swift_import : Type := mk_swift {
  sw_module : item_str;
  sw_name : item_str
}.

(** src/lang/swift.rs:70-74 *)
Definition swift_format_item (i : swift_import) : list str := [content (sw_name i)].

(** src/lang/swift.rs:96-115 *)
Definition swift_imports (tokens : tokens swift_import) (out : Tokens.tokens swift_import)
  : Tokens.tokens swift_import :=
  let modules :=
    fold_left (fun s i => set_insert cmp_item_str (sw_module i) s)
      (walk_imports tokens) [] in
  line
    (match modules with
     | [] => out
     | _ => for_each (fun module out =>
              out |> push |> st $"import" |> space |> istr module) modules out
     end).

(** src/lang/swift.rs:27-75 *)
Definition swift_lang : lang_def swift_import unit unit := {|
  ld_indentation := ISpace 4;
  ld_ops := fun _ _ => lang_ops_of swift_write_quoted swift_format_item;
  ld_default_config := tt;
  ld_default_format := tt;
  ld_format_file := fun t _ => [(swift_imports t new, tt); (t, tt)]
|}.
