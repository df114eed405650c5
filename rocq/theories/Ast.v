(** * Ast: the style sheet AST, [/repo/packages/stylist-core/src/ast/].

    [Cow<'static, [T]>] is a list, [Cow<'static, str>] a [str] and [Bow<'static, T>] a
    plain [T]: borrowed and owned data are observably the same (see [Owned.v]). *)

From Coq Require Import List NArith Bool.
From Verif Require Import Str.
Import ListNotations.

(** [StringFragment { inner }], ast/str_frag.rs 13-27; written verbatim (19-23). *)
Definition str_fragment := str.

(** [Selector { fragments }], ast/selector.rs 14-16. *)
Definition selector := list str_fragment.

(** [StyleAttribute { key, value }], ast/style_attr.rs 12-15. *)
Record attr := mk_attr { a_key : str; a_value : list str_fragment }.

(** [RuleBlockContent], ast/rule_block_content.rs: [StyleAttr(StyleAttribute)],
    [Rule(Bow<Rule>)], [Block(Bow<Block>)], with [Rule { condition, content }]
    (ast/rule.rs 21-24) and [Block { condition, content }] (ast/block.rs 16-24) inlined. *)
Inductive rbc :=
| CAttr (a : attr)
| CRule (cond : list str_fragment) (content : list rbc)
| CBlock (cond : list selector) (content : list rbc).

(** [ScopeContent], ast/scope_content.rs: [Block(Block)], [Rule(Rule)]. *)
Inductive scope_content :=
| SBlock (cond : list selector) (content : list rbc)
| SRule (cond : list str_fragment) (content : list rbc).

(** [Sheet(Cow<'static, [ScopeContent]>)], ast/sheet.rs 43. *)
Definition sheet := list scope_content.

(** A scope content seen as rule block content (their [write_style] are the same
    functions, ast/scope_content.rs and ast/rule_block_content.rs). *)
Definition rbc_of_scope (c : scope_content) : rbc :=
  match c with
  | SBlock cond content => CBlock cond content
  | SRule cond content => CRule cond content
  end.

(** Induction principle through the nested lists. *)
Section RbcInd.
  Variable P : rbc -> Prop.
  Variable Q : list rbc -> Prop.
  Hypothesis HA : forall a, P (CAttr a).
  Hypothesis HR : forall cond content, Q content -> P (CRule cond content).
  Hypothesis HB : forall cond content, Q content -> P (CBlock cond content).
  Hypothesis Hnil : Q [].
  Hypothesis Hcons : forall c l, P c -> Q l -> Q (c :: l).

  Fixpoint rbc_ind2 (c : rbc) : P c :=
    let fix go (l : list rbc) : Q l :=
      match l with
      | [] => Hnil
      | c :: l' => Hcons c l' (rbc_ind2 c) (go l')
      end in
    match c with
    | CAttr a => HA a
    | CRule cond content => HR cond content (go content)
    | CBlock cond content => HB cond content (go content)
    end.

  Fixpoint rbcs_ind2 (l : list rbc) : Q l :=
    match l with
    | [] => Hnil
    | c :: l' => Hcons c l' (rbc_ind2 c) (rbcs_ind2 l')
    end.
End RbcInd.
