(** * PropsThreadNames: class names of styles that are created in several threads (C86, C19). *)

From Coq Require Import String Ascii List NArith Bool Arith Lia Permutation.
From Verif Require Import Str StrFacts Ast CssParser Ids IdFacts Manager SpecManager ManagerFacts ManagerInv ManagerSteps ManagerCore
  ManagerProps PropsManager Threads SpecThreads ThreadFacts PropsThreads.
Import ListNotations.
Local Open Scope list_scope.

Lemma nodup_flat {A B} (f : A -> list B) l : NoDup (flat_map f l) ->
  forall t t' x y s, nth_error l t = Some x -> nth_error l t' = Some y -> In s (f x) -> In s (f y) -> t = t'.
Proof.
  induction l as [|a l IH]; intros N t t' x y s E E' I I'; [destruct t; discriminate|]. cbn in N.
  assert (D : forall z, In z (f a) -> ~ In z (flat_map f l)).
  { clear -N. induction (f a) as [|b r IHr]; [intros ? []|]. inversion N; subst. intros z [<-|Iz] F.
    - apply H1. apply in_or_app. now right.
    - now apply (IHr H2 z). }
  assert (M : NoDup (flat_map f l)).
  { clear -N. induction (f a) as [|b r IHr]; auto. inversion N; auto. }
  destruct t as [|t], t' as [|t']; cbn in E, E'; auto.
  - injection E as ->. exfalso. apply (D s I). apply in_flat_map. exists y. split; auto. eapply nth_error_In; eauto.
  - injection E' as ->. exfalso. apply (D s I'). apply in_flat_map. exists x. split; auto. eapply nth_error_In; eauto.
  - f_equal. eapply IH; eauto.
Qed.

Lemma nodup_part {A B} (f : A -> list B) l x : NoDup (flat_map f l) -> In x l -> NoDup (f x).
Proof.
  induction l as [|a l IH]; intros N I; [destruct I|]. cbn in N. destruct I as [<-|I].
  - clear -N. induction (f a) as [|b r IHr]; constructor; inversion N; subst; auto.
    intros I. apply H1. apply in_or_app. now left.
  - apply IH; auto. clear -N. induction (f a) as [|b r IHr]; auto. inversion N; auto.
Qed.

Section Server.
  Variable inits : list sheet.
  Variable work : list (list call).
  Variable sched : list nat.
  Let m := after inits work sched.
  Hypothesis few : (N.of_nat (List.length (ids_of m)) <= 2 ^ 64)%N.

  Lemma drawn_counter s : In s (ids_of m) -> exists k, k < List.length (ids_of m) /\ s = counter_entropy k.
  Proof.
    intros I. destruct (threads_ids inits work sched) as [P _]. fold m in P.
    apply (Permutation_in _ P) in I. apply in_map_iff in I as (k & <- & Ik). apply in_seq in Ik. exists k. split; [lia|auto].
  Qed.

  Lemma drawn_apart s s' : In s (ids_of m) -> In s' (ids_of m) -> s <> s' ->
    forall p q : str, p ++ lit "-" ++ s <> q ++ lit "-" ++ s'.
  Proof.
    intros I I' N p q. apply drawn_counter in I as (k & Hk & ->). apply drawn_counter in I' as (k' & Hk' & ->).
    apply (counter_draws_apart _ few); auto.
  Qed.

  Lemma in_ids t th s : nth_error (m_threads m) t = Some th -> In s (ids_of_thread th) -> In s (ids_of m).
  Proof. intros E I. apply in_flat_map. exists th. split; auto. eapply nth_error_In; eauto. Qed.
End Server.

(** What a manager draws in a thread are the names that the thread is given: the [i]-th of these. *)
Definition draws_in (th : thread) (e : env) (n : nat) : Prop :=
  forall i, i < n -> nth_error (ids_of_thread th) i = Some (e_draw e i).

(** In a thread of a server, whatever the other threads draw in between, the names that its managers give are as
    different as the theorems about managers ask for. *)
Theorem thread_no_clash : forall inits work sched t th e page l n,
  let m := after inits work sched in
  nth_error (m_threads m) t = Some th -> (N.of_nat (List.length (ids_of m)) <= 2 ^ 64)%N ->
  draws_in th e n ->
  (forall id, In id (page_ids page) \/ In id (loaded_ids l) ->
     forall p k, id <> p ++ lit "-style-" ++ decimal k) ->
  no_clash e page l n.
Proof.
  intros inits work sched t th e page l n m E B D H.
  assert (In_i : forall i, i < n -> In (e_draw e i) (ids_of m)).
  { intros i Hi. eapply in_ids; eauto. eapply nth_error_In. now apply D. }
  assert (Nd : forall id, In id (page_ids page) \/ In id (loaded_ids l) -> not_drawn (e_draw e) n id).
  { intros id I i Hi p. destruct (drawn_counter inits work sched B _ (In_i i Hi)) as (k & _ & ->).
    unfold counter_entropy. now apply H. }
  split; [|split; auto].
  intros i j Hi Hj Hij. apply (drawn_apart inits work sched B); auto.
  intros Eq. apply Hij.
  assert (Nt : NoDup (ids_of_thread th)).
  { apply (nodup_part _ (m_threads m)); [|eapply nth_error_In; eauto]. now apply threads_ids. }
  rewrite NoDup_nth_error in Nt. apply Nt.
  - apply nth_error_Some. rewrite (D i Hi). discriminate.
  - rewrite (D i Hi), (D j Hj), Eq. reflexivity.
Qed.
Print Assumptions thread_no_clash.

(** Styles that are created in different threads have different class names. *)
Theorem threads_names_differ : forall inits work sched t th t' th' e page l w i c e' page' l' w' i' c',
  let m := after inits work sched in
  (N.of_nat (List.length (ids_of m)) <= 2 ^ 64)%N ->
  nth_error (m_threads m) t = Some th -> nth_error (m_threads m) t' = Some th' -> t <> t' ->
  reaches e page l w -> draws_in th e (w_draws w) ->
  reaches e' page' l' w' -> draws_in th' e' (w_draws w') ->
  nth_error (w_contents w) i = Some c -> c_hydrated c = false ->
  nth_error (w_contents w') i' = Some c' -> c_hydrated c' = false ->
  c_id c <> c_id c'.
Proof.
  intros inits work sched t th t' th' e page l w i c e' page' l' w' i' c' m B Et Et' Ne R D R' D' Hc Hh Hc' Hh'.
  apply reaches_core in R. pose proof (o_origin _ _ _ _ R _ _ Hc) as O. cbv beta in O. rewrite Hh in O.
  destruct O as (n & Hn & M).
  apply reaches_core in R'. pose proof (o_origin _ _ _ _ R' _ _ Hc') as O'. cbv beta in O'. rewrite Hh' in O'.
  destruct O' as (n' & Hn' & M'). rewrite M, M'.
  destruct (new_id_dash (k_global (c_key c)) (k_prefix (c_key c)) (e_draw e n)) as [q ->].
  destruct (new_id_dash (k_global (c_key c')) (k_prefix (c_key c')) (e_draw e' n')) as [q' ->].
  pose proof (nth_error_In _ _ (D n Hn)) as I. pose proof (nth_error_In _ _ (D' n' Hn')) as I'.
  assert (J : In (e_draw e n) (ids_of m)) by exact (in_ids inits work sched t th _ Et I).
  assert (J' : In (e_draw e' n') (ids_of m)) by exact (in_ids inits work sched t' th' _ Et' I').
  apply (drawn_apart inits work sched B _ _ J J').
  intros Eq. apply Ne. rewrite Eq in I.
  apply (nodup_flat ids_of_thread (m_threads m)) with (x := th) (y := th') (s := e_draw e' n'); auto.
  now apply threads_ids.
Qed.
Print Assumptions threads_names_differ.

(** Two threads of a server, drawing in turns: each creates two styles. *)
Definition pages_work : list (list call) := [[KDraw; KDraw]; [KDraw; KDraw]].
Definition pages_env (l : list str) : env := mk_env false false None false (fun i => nth i l []).
Definition pages_ops (color : string) : list op :=
  [OBuild (lit "app") None true true; OCreate 0 (style_key (lit "app") (demo_sheet color)); OCreate 0 (style_key (lit "app") (demo_sheet "blue"))].

Example pages_ex :
  let m := after [] pages_work [1; 0; 1; 0] in
  map ids_of_thread (m_threads m) = [[lit "style-1"; lit "style-3"]; [lit "style-0"; lit "style-2"]]
  /\ (exists th, nth_error (m_threads m) 0 = Some th
      /\ draws_in th (pages_env (ids_of_thread th)) 2
      /\ map c_id (w_contents (fst (run (pages_env (ids_of_thread th)) (start []) (pages_ops "red")))) = [lit "app-style-1"; lit "app-style-3"]
      /\ w_draws (fst (run (pages_env (ids_of_thread th)) (start []) (pages_ops "red"))) = 2).
Proof.
  split; [vm_compute; reflexivity|]. eexists. split; [vm_compute; reflexivity|].
  split; [|split; vm_compute; reflexivity].
  intros i Hi. destruct i as [|[|i]]; [reflexivity|reflexivity|lia].
Qed.

(** The same two styles in the other thread: the names are different ones. *)
Example pages_other :
  let m := after [] pages_work [1; 0; 1; 0] in
  exists th, nth_error (m_threads m) 1 = Some th
      /\ draws_in th (pages_env (ids_of_thread th)) 2
      /\ map c_id (w_contents (fst (run (pages_env (ids_of_thread th)) (start []) (pages_ops "red")))) = [lit "app-style-0"; lit "app-style-2"]
      /\ map c_hydrated (w_contents (fst (run (pages_env (ids_of_thread th)) (start []) (pages_ops "red")))) = [false; false].
Proof.
  eexists. split; [vm_compute; reflexivity|].
  split; [|split; vm_compute; reflexivity].
  intros i Hi. destruct i as [|[|i]]; [reflexivity|reflexivity|lia].
Qed.
