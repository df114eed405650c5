(** * SpecInlineAny: how the inline macro cuts up any input, and where a brace makes it panic.

    The grammar of [SpecInline] describes the inputs that are accepted; this one describes all
    inputs that get as far as being converted, with or without errors found on the way. *)

From Coq Require Import String Ascii List NArith Bool.
From Verif Require Import Str Ast Tok Output Inline SpecInline.
Import ListNotations.
Local Open Scope list_scope.

(** A brace anywhere inside of a component value. *)
Inductive has_braces : cval -> Prop :=
| hb_here cs : has_braces (CBlk Brace cs)
| hb_block d cs : Exists has_braces cs -> has_braces (CBlk d cs)
| hb_function i args : Exists has_braces args -> has_braces (CFunction i args).

(** A semicolon in a selector, also in (nested) brackets, ends the attempt to read it. *)
Inductive has_semicolon : cval -> Prop :=
| hs_here j : has_semicolon (CToken (PPunct (ch ";") j))
| hs_bracket cs : Exists has_semicolon cs -> has_semicolon (CBlk Bracket cs).

Inductive any_item :=
| ADecl
| AAt (condition : list cval) (body : list any_item)
| ARule (selectors : list cval) (body : list any_item).

Section Any.
  Variable expr_of : code -> option expr.

  (** Declarations end at a semicolon, at-rules and rules in braces; every name of an at-rule,
      every value and, but for semicolons, every selector will do. *)
  Inductive any : list rtok -> any_item -> list rtok -> Prop :=
  | an_declaration l c name j r values j' r' :
      reads expr_of l c (RPunct (ch ":") j :: r) -> names c name ->
      reads_until expr_of at_semicolon r values (RPunct (ch ";") j' :: r') ->
      any l ADecl r'
  | an_at_rule j l i r condition g body r' :
      reads_ident l i r ->
      reads_until expr_of (fun l => at_semicolon l \/ at_brace l) r condition (RGroup Brace g :: r') ->
      anys g body ->
      any (RPunct (ch "@") j :: l) (AAt condition body) r'
  | an_rule l selectors g body r :
      ~ starts_at_rule l -> ~ starts_declaration expr_of l ->
      reads_until expr_of at_brace l selectors (RGroup Brace g :: r) ->
      Forall (fun c => ~ has_semicolon c) selectors ->
      anys g body ->
      any l (ARule selectors body) r
  with anys : list rtok -> list any_item -> Prop :=
  | ans_nil : anys [] []
  | ans_cons l i r items : any l i r -> anys r items -> anys l (i :: items).
End Any.

(** In the block of a rule: a brace in the condition of an at-rule.  Rules in there are refused
    and not looked into. *)
Inductive block_panics : any_item -> Prop :=
| bp_condition condition body : Exists has_braces condition -> block_panics (AAt condition body)
| bp_body condition body : Exists block_panics body -> block_panics (AAt condition body).

(** Elsewhere: also a brace in a part of a selector that is otherwise fine - this is to say, in
    the arguments of a function. *)
Inductive item_panics : any_item -> Prop :=
| ip_condition condition body : Exists has_braces condition -> item_panics (AAt condition body)
| ip_body condition body : Exists item_panics body -> item_panics (AAt condition body)
| ip_selector selectors body :
    Exists (fun c => selector_ok c /\ has_braces c) selectors -> item_panics (ARule selectors body)
| ip_block selectors body : Exists block_panics body -> item_panics (ARule selectors body).
