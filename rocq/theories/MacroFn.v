(** * MacroFn: the entry of all macros, /repo/packages/stylist-macros/src/sheet.rs.  [style!],
    [global_style!], [css!] and [use_style!] wrap what it gives into a call (style.rs,
    global_style.rs, css.rs, use_style.rs). *)

From Coq Require Import List.
From Verif Require Import Str Ast Tok Output LitMacro Inline.
Import ListNotations.

(** [sheet::macro_fn], stylist-macros/src/sheet.rs 3-9: a literal comes first, or it is inline
    CSS.  [None] is a compile error. *)
Definition sheet_macro (lit_value : rtok -> option str) (expr_of : code -> option expr)
    (input : list rtok) : option gsheet :=
  match input with
  | RLit t :: rest =>
      match lit_macro lit_value (RLit t :: rest) with Expands g => Some g | _ => None end
  | _ =>
      match inline_macro expr_of input with IExpands g => Some g | _ => None end
  end.

