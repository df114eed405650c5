(** * SpecError: a place in a text, by lines.  Written without reference to the model of the parser. *)

From Coq Require Import String Ascii List NArith Bool Arith.
From Verif Require Import Str Ids.
Import ListNotations.
Local Open Scope list_scope.

Definition nl : char := 10%N.

(** [a] and [b] meet in a line whose beginning is [cur] and whose remainder is [l]; there are [n] lines
    before it. *)
Definition meet_in_line (a b cur l : str) (n : nat) : Prop :=
  exists pre post,
    a = pre ++ cur /\ b = l ++ post
    /\ ~ In nl cur /\ ~ In nl l
    /\ (pre = [] \/ exists p, pre = p ++ [nl])
    /\ (post = [] \/ exists p, post = nl :: p)
    /\ n = count_occ N.eq_dec pre nl.

(** How many bytes UTF-8 takes for a char, and for a text. *)
Definition utf8_len (c : char) : nat :=
  if N.ltb c 128 then 1 else if N.ltb c 2048 then 2 else if N.ltb c 65536 then 3 else 4.
Definition utf8_size (s : str) : nat := fold_right (fun c n => utf8_len c + n) 0 s.

(** One entry of a report: the number of the entry, the number of the line, what was being read,
    the line and a caret below it, after as many spaces as there are bytes before the place. *)
Definition entry (k n : nat) (what cur l : str) : str :=
  decimal (N.of_nat k) ++ lit ": at line " ++ decimal (N.of_nat (S n)) ++ lit ", in " ++ what ++ lit ":" ++ [nl]
  ++ trim_end (cur ++ l) ++ [nl]
  ++ repeat 32%N (utf8_size cur) ++ lit "^" ++ [nl; nl].
