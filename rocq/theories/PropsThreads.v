(** * PropsThreads: threads do not disturb each other (C86). *)

From Coq Require Import String Ascii List NArith Bool Arith Lia Permutation.
From Verif Require Import Str StrFacts Ast CssParser SheetCache Ids Manager ManagerFacts ManagerProps
  Threads SpecThreads ThreadFacts.
Import ListNotations.
Local Open Scope nat_scope.

Definition after (inits : list sheet) (work : list (list call)) (sched : list nat) : machine :=
  trun inits (begin inits work) sched.

Lemma after_inv inits work sched : inv inits work (after inits work sched).
Proof. apply trun_inv, begin_inv. Qed.

(** C86: whatever threads do what and however they are interleaved, every call is answered as if the
    thread were alone, in the order of the thread's calls, and no call is lost. *)
Theorem threads_right : forall inits work sched t th,
  nth_error (m_threads (after inits work sched)) t = Some th ->
  nth_error work t = Some (map fst (t_done th) ++ t_todo th)
  /\ Forall (fun ca => right_answer inits (fst ca) (snd ca)) (t_done th).
Proof.
  intros inits work sched t th E. pose proof (after_inv inits work sched) as H. split.
  - rewrite <- (in_work _ _ _ H) at 1. rewrite nth_error_map, E. reflexivity.
  - apply (ti_done _ _ _ _ (in_t _ _ _ H _ _ E)).
Qed.
Print Assumptions threads_right.

Lemma counter_entropy_inj i j n : (N.of_nat n <= 2 ^ 64)%N -> i < n -> j < n ->
  counter_entropy i = counter_entropy j -> i = j.
Proof.
  intros L Hi Hj E. destruct (Nat.eq_dec i j) as [|N]; auto. exfalso.
  apply (counter_draws_apart n L i j Hi Hj N [] []). now rewrite E.
Qed.

(** The names drawn by all threads together are the first values of the counter, each given out once,
    and they are different as long as the counter has not wrapped. *)
Theorem threads_ids : forall inits work sched,
  let m := after inits work sched in
  Permutation (ids_of m) (map counter_entropy (seq 0 (List.length (ids_of m))))
  /\ ((N.of_nat (List.length (ids_of m)) <= 2 ^ 64)%N -> NoDup (ids_of m)).
Proof.
  intros inits work sched m. pose proof (after_inv inits work sched) as H.
  pose proof (gi_ids _ _ (in_g _ _ _ H)) as P. fold m in P.
  assert (L : List.length (ids_of m) = m_counter m).
  { rewrite (Permutation_length P), map_length, seq_length. reflexivity. }
  rewrite L. split; auto. intros B. apply (Permutation_NoDup (Permutation_sym P)).
  assert (X : forall k n, k + n <= m_counter m -> NoDup (map counter_entropy (seq k n))).
  { intros k n. revert k. induction n as [|n IH]; intros k Hk; cbn; constructor.
    - intros I. apply in_map_iff in I as (j & Ej & Ij). apply in_seq in Ij.
      apply (counter_entropy_inj j k (m_counter m) B) in Ej; lia.
    - apply IH. lia. }
  apply X. lia.
Qed.
Print Assumptions threads_ids.

(** No static sheet is built twice and no text that is CSS is parsed twice. *)
Theorem threads_once : forall inits work sched,
  let m := after inits work sched in
  NoDup (m_built m) /\ NoDup (filter parses (m_parsed m)).
Proof.
  intros inits work sched m. pose proof (in_g _ _ _ (after_inv inits work sched)) as G. split.
  - apply (gi_built _ _ G).
  - apply (gi_parsed _ _ G).
Qed.
Print Assumptions threads_once.

(** There is no deadlock: as long as a thread has something to do, some thread can go on. *)
Theorem threads_no_deadlock : forall inits work sched,
  statics_exist inits work ->
  let m := after inits work sched in
  (forall t, tstep inits m t = None) -> all_done m.
Proof.
  intros inits work sched Se m St. apply (not_stuck inits work); auto. apply after_inv.
Qed.
Print Assumptions threads_no_deadlock.

(** All threads are done after some rounds, whatever the order in the rounds; how many, is known
    before. *)
Theorem threads_finish : forall inits work rounds,
  statics_exist inits work ->
  Forall (a_round (List.length work)) rounds ->
  total_cost inits work < List.length rounds ->
  all_done (after inits work (List.concat rounds)).
Proof.
  intros inits work rounds Se F L. apply (rounds_finish inits work); auto.
  - apply begin_inv.
  - now rewrite cost_begin.
Qed.
Print Assumptions threads_finish.

(** ** Examples *)

(** Two threads, the same text, a text that is no CSS, two draws each and a shared static. *)
Definition ex_text : str := lit "color: red;".
Definition ex_bad : str := lit "}".
Definition ex_inits : list sheet := [match parse ex_text with Parsed s => s | _ => [] end].
Definition ex_work : list (list call) :=
  [ [KStatic 0; KDraw; KParse ex_text; KDraw]; [KParse ex_text; KDraw; KStatic 0; KParse ex_bad; KDraw] ].

Example threads_ex_exist : statics_exist ex_inits ex_work.
Proof.
  intros l i [<-|[<-|[]]] H; cbn in H |- *;
    repeat (destruct H as [H|H]; [try discriminate; injection H; lia|]); destruct H.
Qed.

Example threads_ex :
  let m := after ex_inits ex_work (List.concat (repeat [1; 0] 40)) in
  map t_todo (m_threads m) = [[]; []]
  /\ ids_of m = [lit "style-0"; lit "style-2"; lit "style-1"; lit "style-3"]
  /\ m_parsed m = [ex_bad; ex_text] /\ m_built m = [0].
Proof. vm_compute. repeat split. Qed.

(** A schedule in which the first thread waits for the lock that the second has. *)
Example threads_ex_wait :
  let m := after ex_inits [[KParse ex_text]; [KParse ex_text]] [0; 1; 1] in
  tstep ex_inits m 0 = None /\ tstep ex_inits m 1 <> None.
Proof. split; vm_compute; [reflexivity|discriminate]. Qed.
