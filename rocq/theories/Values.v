(** * Values that can be appended to a stream.

    Models src/tokens/format_into.rs, quoted.rs, register.rs, display.rs,
    static_literal.rs, from_fn.rs, internal.rs, item.rs:79-86,
    item_str.rs:24-40 and the [FormatInto]/[Register] impls generated by
    [impl_lang!] (src/macros.rs:161-184). *)
From Verif Require Import Tokens SpecTokens TokensRun.

Section Values.
Context {LI : Type}.

(** What implements [Register]: a language item or a tuple of registerables. *)
Inductive reg : Type :=
| RItem (l : LI)                      (* src/macros.rs:174-184 *)
| RTuple (rs : list reg).             (* src/tokens/register.rs:115-137 *)

(** What implements [FormatInto].  [VFn] is a closure given by the calls it
    makes on the stream; an argument of [display] by the text its [Display]
    implementation writes. *)
Inductive value : Type :=
| VTokens (b : tokens LI)             (* format_into.rs:54-85 *)
| VItem (x : item LI)                 (* item.rs:79-86 *)
| VItemStr (s : item_str)             (* item_str.rs:24-40 *)
| VStr (s : str)      (* &str, &String, String, Rc<String>, &Rc<String>,
                         Arguments: format_into.rs:190-320 *)
| VCow (borrowed : bool) (s : str)    (* format_into.rs:367-405 *)
| VStatic (s : str)                   (* static_literal.rs:12-19 *)
| VInt (z : Z)                        (* format_into.rs:473-491 *)
| VDisplay (s : str)                  (* display.rs:73-83 *)
| VVec (vs : list value)  (* Vec, &Vec, &[T]: format_into.rs:104-173 *)
| VCowSlice (borrowed : bool) (vs : list value)
                                      (* format_into.rs:423-471 *)
| VOption (v : option value)          (* format_into.rs:339-349 *)
| VQuoted (v : value)                 (* quoted.rs:66-76 *)
| VLang (l : LI)                      (* macros.rs:162-172 *)
| VRegister (r : reg)                 (* register.rs:64-72 *)
| VFn (cs : list (call LI)).          (* from_fn.rs:43-52 *)

(** src/tokens/register.rs:106-137, src/tokens/internal.rs:29-36 *)
Fixpoint register (r : reg) (t : tokens LI) : tokens LI :=
  match r with
  | RItem l => lang_item_register l t
  | RTuple rs => fold_left (fun t r => register r t) rs t
  end.

(** [FormatInto::format_into] of each type, in the order above. *)
Fixpoint format_into (v : value) (t : tokens LI) : tokens LI :=
  match v with
  | VTokens b => extend (items b) t
  | VItem x => add_item x t
  | VItemStr s => add_item (Literal s) t
  | VStr s => add_item (Literal (Box s)) t
  | VCow borrowed s =>
      if borrowed then add_item (Literal (Box s)) t
      else add_item (Literal (Box s)) t
  | VStatic s => add_item (Literal (Static s)) t
  | VInt z => add_item (Literal (Box (dec_z z))) t
  | VDisplay s => add_item (Literal (Box s)) t
  | VVec vs => fold_left (fun t v => format_into v t) vs t
  | VCowSlice borrowed vs =>
      if borrowed then fold_left (fun t v => format_into v t) vs t
      else fold_left (fun t v => format_into v t) vs t
  | VOption None => t
  | VOption (Some v) => format_into v t
  | VQuoted v =>
      let t := add_item (OpenQuote false) t in
      let t := format_into v t in
      add_item CloseQuote t
  | VLang l => lang_item l t
  | VRegister r => register r t
  | VFn cs => run cs t
  end.

(** src/tokens/tokens.rs:174-179 *)
Definition append (v : value) (t : tokens LI) : tokens LI := format_into v t.

(** ** Specification: the parts of a value, in order *)

Fixpoint reg_parts (r : reg) : list (item LI) :=
  match r with
  | RItem l => [Register 0 l]
  | RTuple rs => flat_map reg_parts rs
  end.

(** Items a call supplies; a nested stream supplies its (merged) items. *)
Definition call_parts (c : call LI) : list (item LI) :=
  match c with
  | CAppend cs => items (build cs)
  | _ => supplied c
  end.

(** The items a value stands for: what [format_into] (src/tokens/format_into.rs) appends one by one. *)
Fixpoint parts (v : value) : list (item LI) :=
  match v with
  | VTokens b => items b
  | VItem x => [x]
  | VItemStr s => [Literal s]
  | VStr s | VCow _ s | VDisplay s => [Literal (Box s)]
  | VStatic s => [Literal (Static s)]
  | VInt z => [Literal (Box (dec_z z))]
  | VVec vs | VCowSlice _ vs => flat_map parts vs
  | VOption None => []
  | VOption (Some v) => parts v
  | VQuoted v => OpenQuote false :: parts v ++ [CloseQuote]
  | VLang l => [Lang 0 l]
  | VRegister r => reg_parts r
  | VFn cs => flat_map call_parts cs
  end.

End Values.
Arguments reg : clear implicits.
Arguments value : clear implicits.
