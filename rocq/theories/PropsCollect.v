(** * PropsCollect: the styles collected on a server can be read from any thread at any time (C91).

    [prun e (pbegin page prog rs) sched]: a thread runs the calls [prog] on its managers while a
    reader in another thread reads the data of each manager in [rs], interleaved as [sched] says. *)

From Coq Require Import String Ascii List NArith Bool Arith Lia.
From Verif Require Import Str Ast CssParser Ids Manager Collect SpecCollect CollectFacts.
Import ListNotations.
Local Open Scope list_scope.

(** A reader gets the data as they are between two calls of the program: after some of its calls,
    among which are all that had returned when the reader was called, and none that
    had not begun when it returned. *)
Theorem read_is_snapshot e page prog rs sched j q d :
  nth_error (k_readers (prun e (pbegin page prog rs) sched)) j = Some q -> q_pc q = QDone d ->
  nth_error rs j = Some (q_mi q)
  /\ exists n, q_begun q <= n <= q_ended q /\ d = data_of (at_call e page prog n) (q_mi q).
Proof.
  intros Hq Hd. pose proof (prun_kinv e page prog rs sched _ (begin_kinv e page prog rs)) as K.
  split.
  - rewrite <- (ki_who _ _ _ _ _ K), nth_error_map, Hq. reflexivity.
  - pose proof (ki_readers _ _ _ _ _ K _ _ Hq) as R. unfold reader_ok in R. rewrite Hd in R.
    destruct R as (n & Hn & _ & E). eauto.
Qed.

(** So it is the beginning of what is collected in the end. *)
Theorem read_is_prefix e page prog rs sched j q d :
  nth_error (k_readers (prun e (pbegin page prog rs) sched)) j = Some q -> q_pc q = QDone d ->
  exists l, data_of (fst (run e (start page) prog)) (q_mi q) = d ++ l.
Proof.
  intros Hq Hd. destruct (read_is_snapshot _ _ _ _ _ _ _ _ Hq Hd) as (_ & n & _ & ->).
  destruct (data_later e page prog n (n + List.length prog) (q_mi q) ltac:(lia)) as [l E].
  exists l. rewrite <- E. unfold at_call. rewrite firstn_all2 by lia. reflexivity.
Qed.

(** The program does not notice: its calls return what they return without readers, and between two
    calls its state is the same. *)
Theorem writer_undisturbed e page prog rs sched :
  let k := prun e (pbegin page prog rs) sched in
  let n := List.length (k_results k) in
  k_results k = snd (run e (start page) (firstn n prog)) /\ k_todo k = skipn n prog
  /\ (k_pc k = WIdle -> k_world k = at_call e page prog n).
Proof.
  intros k n. pose proof (prun_kinv e page prog rs sched _ (begin_kinv e page prog rs)) as K.
  fold k in K. split; [apply (ki_res _ _ _ _ _ K)|]. split; [apply (ki_todo _ _ _ _ _ K)|].
  intros E. pose proof (ki_pc _ _ _ _ _ K) as P. now rewrite E in P.
Qed.

(** No lock is poisoned, even if calls panic: no reader gets empty data in place of the collected. *)
Theorem never_poisoned e page prog rs sched mi :
  k_poison (prun e (pbegin page prog rs) sched) mi = false.
Proof. apply (ki_poison e page prog rs), prun_kinv, begin_kinv. Qed.

(** There is no deadlock, and everything is done after a number of turns that is known before. *)
Theorem read_no_deadlock e page prog rs sched :
  let k := prun e (pbegin page prog rs) sched in
  (forall t, pstep e k t = None) -> finished k.
Proof.
  intros k H. destruct (somebody e page prog rs k) as [|(t & k' & E)]; auto.
  - apply prun_kinv, begin_kinv.
  - now rewrite H in E.
Qed.

Theorem read_finish e page prog rs turns :
  Forall (a_turn (List.length rs)) turns ->
  5 * List.length prog + 4 * List.length rs <= List.length turns ->
  finished (prun e (pbegin page prog rs) (List.concat turns)).
Proof.
  intros F L. apply (turns_finish e page prog rs); auto using begin_kinv.
  enough (E : left (pbegin page prog rs) = 5 * List.length prog + 4 * List.length rs) by lia.
  assert (X : list_sum (map (fun q => qleft (q_pc q)) (map (fun mi => mk_rdr mi QNew 0 0) rs)) = 4 * List.length rs).
  { clear. induction rs as [|x rs IH]; auto.
    change (4 + list_sum (map (fun q => qleft (q_pc q)) (map (fun mi => mk_rdr mi QNew 0 0) rs)) = 4 * S (List.length rs)).
    rewrite IH. lia. }
  unfold left, pbegin. cbn [k_todo k_pc k_readers wleft].
  rewrite X. lia.
Qed.

(** ** Cases *)

Definition server : env := mk_env false false None true (fun n => [65 + N.of_nat n]%N).
Definition red : sheet := match parse (lit "color: red;") with Parsed s => s | _ => [] end.
Definition blue : sheet := match parse (lit "color: blue;") with Parsed s => s | _ => [] end.
(** A sheet whose CSS does not parse: creating a style from it panics in a debug build. *)
Definition broken : sheet := [SBlock [] [CAttr (mk_attr (lit "color") [lit "}"])]].
Definition page_prog : list op :=
  [OBuild (lit "s") None true true; OCreate 0 (mk_key false (lit "s") red);
   OCreate 0 (mk_key false (lit "s") broken);
   OCreate 0 (mk_key false (lit "s") blue); OCreate 0 (mk_key false (lit "s") red); ORead 0].

Definition got (k : proc) : list (option (list str)) :=
  map (fun q => match q_pc q with QDone d => Some (map r_id d) | _ => None end) (k_readers k).

(** Three readers: before the second style, in the middle of its creation, and at the end. *)
Example three_readers :
  let k := prun server (pbegin [] page_prog [0; 0; 0])
             ([Writer; Writer; Writer; Writer; Writer; Writer; Writer; Reader 0; Reader 0; Reader 0; Reader 0;
               Writer; Writer; Reader 1; Reader 1; Reader 1; Writer; Writer; Writer; Reader 1; Reader 1; Reader 1]
              ++ repeat Writer 10 ++ repeat (Reader 2) 4) in
  finished k
  /\ got k = [Some [lit "s-A"]; Some [lit "s-A"; lit "s-C"]; Some [lit "s-A"; lit "s-C"]]
  /\ k_results k = snd (run server (start []) page_prog)
  /\ nth_error (k_results k) 2 = Some RPanic
  /\ map (fun q => (q_begun q, q_ended q)) (k_readers k) = [(3, 3); (3, 4); (6, 6)].
Proof. vm_compute. repeat split. repeat constructor; eexists; reflexivity. Qed.

(** A reader waits while a style is recorded, and the program waits while a reader copies. *)
Example they_wait :
  let k := prun server (pbegin [] page_prog [0]) [Writer; Writer; Writer; Reader 0] in
  rstep k 0 = None
  /\ (let k2 := prun server (pbegin [] page_prog [0]) [Writer; Writer; Reader 0; Reader 0] in
      wstep server k2 = None).
Proof. vm_compute. split; reflexivity. Qed.

Print Assumptions read_is_snapshot.
Print Assumptions read_is_prefix.
Print Assumptions writer_undisturbed.
Print Assumptions never_poisoned.
Print Assumptions read_no_deadlock.
Print Assumptions read_finish.
