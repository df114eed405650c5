(** * SpecGlobalText: which sheets mention the class or [:root] at all.

    A declaration in a block is written under a selector; so is an at-rule for keyframes in a
    block.  Everything else stands under at-rules only, or is not written. *)

From Coq Require Import String Ascii List NArith Bool.
From Verif Require Import Str Ast.
Import ListNotations.
Local Open Scope list_scope.

(** Something is written for [x]: it is a declaration, a keyframes rule, or has such in it. *)
Inductive shows : rbc -> Prop :=
| shows_attr a : shows (CAttr a)
| shows_keyframes cond l t : List.concat cond = lit "@keyframes" ++ t -> shows (CRule cond l)
| shows_rule cond l x : In x l -> shows x -> shows (CRule cond l)
| shows_block sels l x : In x l -> shows x -> shows (CBlock sels l).

(** A block in [x], or [x] itself, in which something is written. *)
Inductive has_shown_block : rbc -> Prop :=
| shown_here sels l x : In x l -> shows x -> has_shown_block (CBlock sels l)
| shown_in_rule cond l x : In x l -> has_shown_block x -> has_shown_block (CRule cond l).

Definition shown_block (s : sheet) : Prop := exists x, In x s /\ has_shown_block (rbc_of_scope x).
