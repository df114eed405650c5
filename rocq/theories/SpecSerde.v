(** * SpecSerde: trees that hold the same data. *)

From Coq Require Import String Ascii List Permutation.
From Verif Require Import Str Serde.
Import ListNotations.
Local Open Scope list_scope.

(** The variants of the enums of style sheets. *)
Definition variants : list str := [lit "StyleAttr"; lit "Rule"; lit "Block"].
(** An object that stands for a variant of an enum, and not for a struct. *)
Definition is_variant (l : list (str * jval)) : Prop := exists k v, l = [(k, v)] /\ In k variants.

(** The same data: with the fields of its structs in any order, or without their names (as compact
    formats write structs: the values of the fields, in the order of the declaration). *)
Inductive reordered : jval -> jval -> Prop :=
| re_bool b : reordered (JBool b) (JBool b)
| re_str s : reordered (JStr s) (JStr s)
| re_other : reordered JOther JOther
| re_seq l l' : Forall2 reordered l l' -> reordered (JSeq l) (JSeq l')
| re_obj l l1 l' : Permutation l l1 ->
    Forall2 (fun p q => fst p = fst q /\ reordered (snd p) (snd q)) l1 l' ->
    reordered (JObj l) (JObj l')
| re_struct l l' : ~ is_variant l -> Forall2 reordered (map snd l) l' -> reordered (JObj l) (JSeq l').
