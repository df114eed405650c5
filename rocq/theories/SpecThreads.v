(** * SpecThreads: what threads may rely on, in terms of what they call and what they are answered. *)

From Coq Require Import List NArith Bool Arith.
From Verif Require Import Str Ast CssParser Threads.
Import ListNotations.

(** The right answer to a call, whoever else is running. *)
Definition right_answer (inits : list sheet) (c : call) (a : answer) : Prop :=
  match c, a with
  | KParse s, ASheet r => r = parse s
  | KStatic i, AStatic v => nth_error inits i = Some v
  | KDraw, AId _ => True
  | _, _ => False
  end.

(** The names that have been drawn, in all threads. *)
Definition ids_of_thread (th : thread) : list str :=
  flat_map (fun ca => match snd ca with AId s => [s] | _ => [] end) (t_done th).
Definition ids_of (m : machine) : list str := flat_map ids_of_thread (m_threads m).

Definition parses (s : str) : bool := match parse s with Parsed _ => true | _ => false end.

(** Every thread has returned from everything it was to call. *)
Definition all_done (m : machine) : Prop :=
  forall t th, nth_error (m_threads m) t = Some th -> t_todo th = [].

(** The statics that are used exist. *)
Definition statics_exist (inits : list sheet) (work : list (list call)) : Prop :=
  forall l i, In l work -> In (KStatic i) l -> (i < List.length inits)%nat.

(** How often threads can go on at most before all are done. *)
Definition call_cost (c : call) : nat :=
  match c with KParse _ => 6 | KDraw => 1 | KStatic _ => 2 end.
Definition total_cost (inits : list sheet) (work : list (list call)) : nat :=
  list_sum (map (fun l => list_sum (map call_cost l)) work) + 2 * List.length inits.

(** A round lets each of [n] threads go on at least once. *)
Definition a_round (n : nat) (l : list nat) : Prop := forall t, (t < n)%nat -> In t l.
