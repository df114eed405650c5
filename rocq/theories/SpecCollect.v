(** * SpecCollect: what readers of collected styles are to get (C91). *)

From Coq Require Import String Ascii List NArith Bool Arith.
From Verif Require Import Str Ast Ids Manager Collect.
Import ListNotations.
Local Open Scope list_scope.

(** The state of a program that runs alone, between its calls: after the first [n]. *)
Definition at_call (e : env) (page : dom) (prog : list op) (n : nat) : world :=
  fst (run e (start page) (firstn n prog)).

(** All calls have returned. *)
Definition finished (k : proc) : Prop :=
  k_todo k = [] /\ Forall (fun q => exists d, q_pc q = QDone d) (k_readers k).

(** A turn in which the program and each of [n] readers may go on, in any order. *)
Definition a_turn (n : nat) (l : list who) : Prop :=
  In Writer l /\ forall j, (j < n)%nat -> In (Reader j) l.
