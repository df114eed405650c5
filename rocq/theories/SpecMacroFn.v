(** * SpecMacroFn: what an invocation of a macro says. *)

From Coq Require Import List.
From Verif Require Import Str Ast CssParser Tok Output LitMacro SpecMacro SpecOutput Inline SpecInline.
Import ListNotations.

(** The input says the sheet [s] at a time when the expressions have the values of [rho]: it is a
    literal with CSS in it, and [s] is the CSS with the placeholders replaced by the values of the
    arguments; or it is written inline, in the syntax of [SpecInline]. *)
Inductive macro_says (lit_value : rtok -> option str) (expr_of : code -> option expr) (rho : env)
  : list rtok -> sheet -> Prop :=
| ms_literal t rest css sh args s :
    lit_value (RLit t) = Some css -> parse css = Parsed sh -> after_literal rest args ->
    sheet_fills (argument args rho) sh s ->
    macro_says lit_value expr_of rho (RLit t :: rest) s
| ms_inline input items s :
    (forall t rest, input <> RLit t :: rest) ->
    reads_sheet expr_of input items -> sheet_says rho items s ->
    macro_says lit_value expr_of rho input s.

(** The input is accepted: a literal with CSS in it and arguments for exactly its placeholders, or
    inline CSS. *)
Inductive macro_accepts (lit_value : rtok -> option str) (expr_of : code -> option expr)
  : list rtok -> Prop :=
| ma_literal t rest css sh args :
    lit_value (RLit t) = Some css -> parse css = Parsed sh -> after_literal rest args ->
    NoDup (map fst args) ->
    (forall n, In n (map fst args) <-> exists s, In s (sheet_strings sh) /\ has_hole n s) ->
    (forall s, In s (sheet_strings sh) -> exists ps, Forall piece_ok ps /\ s = write ps) ->
    macro_accepts lit_value expr_of (RLit t :: rest)
| ma_inline input items :
    (forall t rest, input <> RLit t :: rest) -> reads_sheet expr_of input items ->
    macro_accepts lit_value expr_of input.
