(** * SpecJoin: one sheet after another.

    [joins a b s]: [s] is the sheet that says [a] and then [b].  Declarations outside braces that
    come directly after each other are one group; otherwise the items are those of [a] and then
    those of [b].  A sheet that ends with declarations outside braces is not followed by a block
    whose first selector starts like a declaration ([a:hover]: see C14).  Written without reference
    to the parser model. *)

From Coq Require Import List.
From Verif Require Import Str Ast SpecGrammar.
Import ListNotations.

(** Declarations outside braces. *)
Definition bare (x : scope_content) : Prop := exists l, x = SBlock [] l.
Definition ends_bare (a : sheet) : Prop := exists a' x, a = a' ++ [x] /\ bare x.

(** What is said apart from declarations before it: a rule, or a block whose first selector does
    not start like a declaration. *)
Definition apart (x : scope_content) : Prop :=
  match x with
  | SBlock [] _ => False
  | SBlock (sel :: _) _ => forall s, sel = [s] -> ~ starts_like_decl s
  | SRule _ _ => True
  end.

Inductive joins : sheet -> sheet -> sheet -> Prop :=
| joins_closed a b : ~ ends_bare a -> joins a b (a ++ b)
| joins_nil a : joins a [] a
| joins_apart a x b : apart x -> joins a (x :: b) (a ++ x :: b)
| joins_group a l l' b :
    joins (a ++ [SBlock [] l]) (SBlock [] l' :: b) (a ++ SBlock [] (l ++ l') :: b).
