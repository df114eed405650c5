(** * PropsInlineAny: exactly when the inline macro panics, and when it stops with a syntax
    error (C46). *)

From Coq Require Import String Ascii List NArith Bool Arith Lia.
From Verif Require Import Str Ast Tok Output Inline SpecInline SpecInlineAny InlineSafe InlineAny PropsInline.
Import ListNotations.
Local Open Scope list_scope.

(** The macro panics exactly if the input can be cut up into items and one of them has a brace in
    the condition of an at-rule, or among the arguments of a function in a selector.  (Braces in
    values are reported as errors; rules inside of rules are not looked into.) *)
Theorem inline_panics_iff : forall expr_of input,
  inline_macro expr_of input = IPanic <->
  exists items, anys expr_of input items /\ Exists item_panics items.
Proof. exact inline_panics. Qed.
Print Assumptions inline_panics_iff.

(** It stops at the first error exactly if the input cannot be cut up. *)
Theorem inline_syntax_error_iff : forall expr_of input,
  inline_macro expr_of input = ISyntaxError <-> ~ exists items, anys expr_of input items.
Proof. exact inline_syntax_error. Qed.
Print Assumptions inline_syntax_error_iff.

(** Every input is cut up in at most one way. *)
Theorem inline_items_unique : forall expr_of input a b,
  anys expr_of input a -> anys expr_of input b -> a = b.
Proof. intros expr_of input a b Ha Hb. exact (proj2 (any_fun expr_of) _ _ Ha _ Hb). Qed.
Print Assumptions inline_items_unique.

(** All errors are reported, and nothing else happens, exactly if the input can be cut up, no brace
    is in the way and the input is not in the grammar of [SpecInline]. *)
Theorem inline_errors_iff : forall expr_of input,
  (exists es g, inline_macro expr_of input = IErrors es g) <->
  (exists items, anys expr_of input items /\ ~ Exists item_panics items)
  /\ ~ exists items, reads_sheet expr_of input items.
Proof.
  intros expr_of input. split.
  - intros (es & g & E). split.
    + destruct (root expr_of input) as [cs r| |] eqn:R; unfold inline_macro in E; rewrite R in E; try discriminate.
      destruct (root_sound _ _ _ _ R) as (items & A & S). exists items. split; [exact A|].
      intros X. apply (root_panics_iff _ _ S) in X. rewrite X in E. discriminate.
    + intros (items & H). destruct (inline_complete _ _ _ H) as (out & E' & _). congruence.
  - intros ((items & A & N) & G). destruct (inline_macro expr_of input) as [g|es g| | |] eqn:E.
    + destruct (inline_sound _ _ _ E) as (items' & out & H & _). elim G. eauto.
    + eauto.
    + apply inline_syntax_error in E. elim E. eauto.
    + apply inline_panics in E as (items' & A' & X). elim N.
      now rewrite (inline_items_unique _ _ _ _ A A').
    + now apply inline_macro_total in E.
Qed.
Print Assumptions inline_errors_iff.

(** [@media ({}) {}] and [.a:not([{}]) {}] panic; [a: b({});], [({}) {}] and
    [.a { .b:not({}) {} }] are only refused; [a { ; }] is a syntax error. *)
Example inline_panics_ex :
  inline_macro any_expr [pu "@"; id "media"; RGroup Paren [RGroup Brace []]; RGroup Brace []] = IPanic
  /\ inline_macro any_expr [pu "."; id "a"; pu ":"; id "not"; RGroup Paren [RGroup Bracket [RGroup Brace []]]; RGroup Brace []] = IPanic
  /\ (exists e, inline_macro any_expr [id "a"; pu ":"; id "b"; RGroup Paren [RGroup Brace []]; pu ";"] = IErrors e no_sheet)
  /\ (exists e, inline_macro any_expr [RGroup Paren [RGroup Brace []]; RGroup Brace []] = IErrors e no_sheet)
  /\ (exists e, inline_macro any_expr [pu "."; id "a"; RGroup Brace [pu "."; id "b"; pu ":"; id "not"; RGroup Paren [RGroup Brace []]; RGroup Brace []]] = IErrors e no_sheet)
  /\ inline_macro any_expr [id "a"; RGroup Brace [pu ";"]] = ISyntaxError.
Proof.
  split; [vm_compute; reflexivity|]. split; [vm_compute; reflexivity|].
  split; [eexists; vm_compute; reflexivity|]. split; [eexists; vm_compute; reflexivity|].
  split; [eexists; vm_compute; reflexivity|]. vm_compute. reflexivity.
Qed.

(** The grammar itself meets such a case. *)
Example inline_panics_grammar_ex :
  exists items, anys any_expr [pu "@"; id "media"; RGroup Paren [RGroup Brace []]; RGroup Brace []] items
                /\ Exists item_panics items.
Proof. apply inline_panics_iff. vm_compute. reflexivity. Qed.
