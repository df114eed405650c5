(** * SpecSize: how big a style sheet is, for the size of the CSS written for it (C89).

    A sheet has a number of items (declarations, blocks and rules, at any depth), a
    number of chars in its texts, and a depth of rules in each other. *)

From Coq Require Import List Arith.
From Verif Require Import Str Ast.
Import ListNotations.
Local Open Scope list_scope.

Fixpoint sum (l : list nat) : nat := match l with [] => 0 | x :: l' => x + sum l' end.
Fixpoint most (l : list nat) : nat := match l with [] => 0 | x :: l' => Nat.max x (most l') end.

(** The chars of a text in fragments *)
Definition chars (fragments : list str) : nat := List.length (List.concat fragments).

(** Declarations, blocks and rules *)
Fixpoint items (c : rbc) : nat :=
  match c with
  | CAttr _ => 1
  | CRule _ content | CBlock _ content => 1 + sum (map items content)
  end.
(** Chars in the texts; a selector counts one more, for its comma. *)
Fixpoint text_size (c : rbc) : nat :=
  match c with
  | CAttr a => List.length (a_key a) + chars (a_value a)
  | CRule cond content => chars cond + sum (map text_size content)
  | CBlock cond content => sum (map (fun s => 1 + chars s) cond) + sum (map text_size content)
  end.
(** Rules in each other *)
Fixpoint rule_depth (c : rbc) : nat :=
  match c with
  | CAttr _ => 0
  | CRule _ content => 1 + most (map rule_depth content)
  | CBlock _ content => most (map rule_depth content)
  end.

Definition sheet_items (s : sheet) : nat := sum (map items (map rbc_of_scope s)).
Definition sheet_text (s : sheet) : nat := sum (map text_size (map rbc_of_scope s)).
Definition sheet_nesting (s : sheet) : nat := most (map rule_depth (map rbc_of_scope s)).

(** The room a class name takes in a selector; styles without a class have [:root] there. *)
Definition class_room (class : option str) : nat :=
  match class with Some m => List.length m + 6 | None => 6 end.
