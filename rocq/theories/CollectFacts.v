(** * CollectFacts: readers see the data between two calls (C91). *)

From Coq Require Import String Ascii List NArith Bool Arith Lia.
From Verif Require Import Str Ast CssParser Ids Manager ManagerFacts Collect SpecCollect.
Import ListNotations.
Local Open Scope list_scope.

Lemma set1_eq {A} (f : nat -> A) i x : set1 f i x i = x.
Proof. unfold set1. now rewrite Nat.eqb_refl. Qed.
Lemma set1_neq {A} (f : nat -> A) i x j : j <> i -> set1 f i x j = f j.
Proof. intros H. unfold set1. apply Nat.eqb_neq in H. now rewrite H. Qed.

Lemma run_one_more e w l o :
  run e w (l ++ [o]) =
  (fst (step e (fst (run e w l)) o), snd (run e w l) ++ [snd (step e (fst (run e w l)) o)]).
Proof.
  revert w. induction l as [|x l IH]; intros w; cbn.
  - destruct (step e w o). reflexivity.
  - destruct (step e w x) as [w1 r]. rewrite IH. destruct (run e w1 l). reflexivity.
Qed.

Lemma firstn_more {A} (l : list A) n o : nth_error l n = Some o -> firstn (S n) l = firstn n l ++ [o].
Proof.
  revert n. induction l as [|x l IH]; intros [|n] H; cbn in *; try discriminate.
  - now injection H as ->.
  - now rewrite (IH n H).
Qed.
Lemma skipn_hd {A} (l : list A) n o t : skipn n l = o :: t -> nth_error l n = Some o /\ skipn (S n) l = t.
Proof.
  revert n. induction l as [|x l IH]; intros [|n] H; cbn in *; try discriminate.
  - injection H as -> ->. auto.
  - apply IH in H. exact H.
Qed.

(** ** The steps of a call make the call *)

Lemma upd_same {A} (l : list A) i f g : (forall x, nth_error l i = Some x -> f x = g x) -> upd l i f = upd l i g.
Proof.
  revert i. induction l as [|x l IH]; intros [|i] H; cbn; auto; f_equal; auto. 
Qed.

Lemma starts_new e w o p : starts e w o = SNew p ->
  step e w o = (admit_content (p_mi p) (p_key p) (p_id p) (p_text p) (push_record p (draw w)),
                RHandle (List.length (w_handles w)))
  /\ occupied p (push_record p (draw w)) = false.
Proof.
  destruct o; try discriminate; cbn [starts step].
  - destruct (handle_of _ h) as [mi|]; [|discriminate].
    destruct (nth_error (w_mgrs w) mi) as [m|] eqn:Em; [|discriminate].
    destruct (reg_get (m_reg m) k) eqn:Er; [discriminate|].
    destruct (m_data m) as [l|] eqn:Ed; [|discriminate].
    destruct (_ && _) eqn:Ep; [discriminate|]. intros [= <-]. cbn [p_mi p_key p_id p_text].
    unfold get_or_register. rewrite Em, Er, Ep, Ed. split.
    + f_equal. f_equal. unfold push_record. cbn [p_mi p_key p_id p_text]. f_equal.
      apply upd_same. intros x Hx. cbn in Hx. rewrite Em in Hx. injection Hx as <-. now rewrite Ed.
    + unfold occupied, push_record. cbn. rewrite nth_upd_eq, Em. cbn. now rewrite Er.
  - destruct (handle_of _ h) as [mi|]; [|discriminate].
    destruct (nth_error (w_mgrs w) mi) as [m|]; [|discriminate]. now destruct (m_data m).
Qed.

Lemma starts_look e w o mi : starts e w o = SLook mi -> step e w o = (w, RData (data_of w mi)).
Proof.
  destruct o; try discriminate; cbn [starts step].
  - destruct (handle_of _ h) as [mi'|]; [|discriminate].
    destruct (nth_error (w_mgrs w) mi') as [m|]; [|discriminate].
    destruct (reg_get (m_reg m) k); [discriminate|]. destruct (m_data m); [|discriminate].
    destruct (_ && _); discriminate.
  - destruct (handle_of _ h) as [mi'|]; [|discriminate].
    destruct (nth_error (w_mgrs w) mi') as [m|] eqn:Em; [|discriminate].
    destruct (m_data m) as [l|] eqn:Ed; [|discriminate]. intros [= <-].
    unfold read_data, data_of. now rewrite Em, Ed.
Qed.

Lemma data_push p w mi : mi <> p_mi p -> data_of (push_record p w) mi = data_of w mi.
Proof. intros H. unfold data_of, push_record. cbn. now rewrite nth_upd_ne by auto. Qed.

Lemma map_upd_q l j q q' : nth_error l j = Some q -> q_mi q' = q_mi q ->
  map q_mi (upd l j (fun _ => q')) = map q_mi l.
Proof.
  revert j. induction l as [|x l IH]; intros [|j] H E; cbn in *; auto.
  - injection H as ->. now rewrite E.
  - now rewrite (IH j).
Qed.

(** ** Invariant *)

Section Inv.
  Variable e : env.
  Variable page : dom.
  Variable prog : list op.
  Variable who_reads : list nat.

  Local Notation at_call := (SpecCollect.at_call e page prog).

  Definition pc_ok (n : nat) (w : world) (pc : wpc) : Prop :=
    match pc with
    | WIdle => w = at_call n
    | WLock p | WPush p =>
        (exists o, nth_error prog n = Some o /\ starts e (at_call n) o = SNew p) /\ w = draw (at_call n)
    | WRegister p =>
        (exists o, nth_error prog n = Some o /\ starts e (at_call n) o = SNew p)
        /\ w = push_record p (draw (at_call n))
    | WUnlock p =>
        (exists o, nth_error prog n = Some o /\ starts e (at_call n) o = SNew p) /\ w = at_call (S n)
    | WLook mi | WCopy mi =>
        (exists o, nth_error prog n = Some o /\ starts e (at_call n) o = SLook mi) /\ w = at_call n
    | WLooked mi d =>
        (exists o, nth_error prog n = Some o /\ starts e (at_call n) o = SLook mi) /\ w = at_call n
        /\ d = data_of (at_call n) mi
    end.

  Definition wholds (pc : wpc) (mi : nat) : Prop :=
    match pc with
    | WPush p | WRegister p | WUnlock p => p_mi p = mi
    | WCopy m | WLooked m _ => m = mi
    | _ => False
    end.
  Definition qholds (pc : qpc) : Prop := match pc with QCopy | QUnlock _ => True | _ => False end.

  Definition reader_ok (done began : nat) (q : rdr) : Prop :=
    match q_pc q with
    | QNew => True
    | QLock | QCopy => q_begun q <= done
    | QUnlock d => exists i, q_begun q <= i <= began /\ d = data_of (at_call i) (q_mi q)
    | QDone d => exists i, q_begun q <= i <= q_ended q /\ q_ended q <= began /\ d = data_of (at_call i) (q_mi q)
    end.

  Record kinv (k : proc) : Prop := {
    ki_todo : k_todo k = skipn (List.length (k_results k)) prog;
    ki_len : List.length (k_results k) <= List.length prog;
    ki_res : k_results k = snd (run e (start page) (firstn (List.length (k_results k)) prog));
    ki_pc : pc_ok (List.length (k_results k)) (k_world k) (k_pc k);
    ki_w : forall mi, k_lock k mi = Some Writer <-> wholds (k_pc k) mi;
    ki_r : forall mi j, k_lock k mi = Some (Reader j) <->
             exists q, nth_error (k_readers k) j = Some q /\ q_mi q = mi /\ qholds (q_pc q);
    ki_poison : forall mi, k_poison k mi = false;
    ki_readers : forall j q, nth_error (k_readers k) j = Some q ->
                   reader_ok (List.length (k_results k)) (begun k) q;
    ki_who : map q_mi (k_readers k) = who_reads
  }.

  Lemma at_more n o : nth_error prog n = Some o ->
    at_call (S n) = fst (step e (at_call n) o)
    /\ snd (run e (start page) (firstn (S n) prog))
       = snd (run e (start page) (firstn n prog)) ++ [snd (step e (at_call n) o)].
  Proof.
    intros H. unfold at_call. rewrite (firstn_more _ _ _ H), run_one_more. auto.
  Qed.

  Lemma begin_kinv : kinv (pbegin page prog who_reads).
  Proof.
    split; cbn; auto; try lia; try tauto.
    - intros mi. split; [discriminate|tauto].
    - intros mi j. split; [discriminate|]. intros (q & Hq & _ & Hh).
      rewrite nth_error_map in Hq. destruct (nth_error who_reads j); [|discriminate].
      injection Hq as <-. destruct Hh.
    - intros j q Hq. rewrite nth_error_map in Hq. destruct (nth_error who_reads j); [|discriminate].
      injection Hq as <-. exact I.
    - rewrite map_map. apply map_id.
  Qed.

  Lemma reader_later done began done' began' q :
    done <= done' -> began <= began' -> reader_ok done began q -> reader_ok done' began' q.
  Proof.
    intros H1 H2. unfold reader_ok. destruct (q_pc q); auto; try lia.
    - intros (i & H & E). exists i. split; auto. lia.
    - intros (i & H & H' & E). exists i. repeat split; auto; lia.
  Qed.

  Lemma begun_return k w r : begun (wreturn k w r) = S (List.length (k_results k)).
  Proof. unfold begun, wreturn. cbn. rewrite app_length. cbn. lia. Qed.
  Lemma begun_le k : begun k <= S (List.length (k_results k)).
  Proof. unfold begun. destruct (k_pc k); lia. Qed.

  Lemma returned k L w r o :
    kinv k -> nth_error prog (List.length (k_results k)) = Some o ->
    step e (at_call (List.length (k_results k))) o = (w, r) ->
    (forall mi, L mi <> Some Writer) ->
    (forall mi j, L mi = Some (Reader j) <-> k_lock k mi = Some (Reader j)) ->
    kinv (mk_proc w WIdle (tl (k_todo k)) (k_results k ++ [r]) L (k_poison k) (k_readers k)).
  Proof.
    intros K Ho Es Hw Hr. destruct (at_more _ _ Ho) as [A1 A2]. rewrite Es in A1, A2. cbn [fst snd] in A1, A2.
    assert (Ln : List.length (k_results k ++ [r]) = S (List.length (k_results k))) by (rewrite app_length; cbn; lia).
    split; cbn [k_todo k_results k_world k_pc k_lock k_poison k_readers]; rewrite ?Ln.
    - rewrite (ki_todo k K). destruct (skipn _ prog) as [|o' t] eqn:Et.
      + exfalso. assert (X : List.length (skipn (List.length (k_results k)) prog) = 0) by now rewrite Et.
        rewrite skipn_length in X. assert (List.length (k_results k) < List.length prog) by (apply nth_error_Some; congruence). lia.
      + apply skipn_hd in Et. symmetry. apply Et.
    - apply nth_error_Some. congruence.
    - rewrite A2. f_equal. apply (ki_res k K).
    - cbn. now rewrite A1.
    - intros mi. cbn. split; [apply Hw|tauto].
    - intros mi j. rewrite Hr. apply (ki_r k K).
    - apply (ki_poison k K).
    - intros j q Hq. eapply reader_later; [| |apply (ki_readers k K _ _ Hq)]; [lia|].
      pose proof (begun_le k). unfold begun in *. cbn. rewrite Ln. lia.
    - apply (ki_who k K).
  Qed.

  Lemma went k L w pc :
    kinv k -> pc <> WIdle -> pc_ok (List.length (k_results k)) w pc ->
    (forall mi, L mi = Some Writer <-> wholds pc mi) ->
    (forall mi j, L mi = Some (Reader j) <-> k_lock k mi = Some (Reader j)) ->
    kinv (mk_proc w pc (k_todo k) (k_results k) L (k_poison k) (k_readers k)).
  Proof.
    intros K Hp Hok Hw Hr. split; cbn [k_todo k_results k_world k_pc k_lock k_poison k_readers];
      try apply K; auto.
    - intros mi j. rewrite Hr. apply (ki_r k K).
    - intros j q Hq. eapply reader_later; [| |apply (ki_readers k K _ _ Hq)]; auto.
      pose proof (begun_le k). unfold begun in *. cbn [k_results k_pc]. destruct pc; try lia. now elim Hp.
  Qed.

  (** Taking a lock that is free, and giving back one's own *)
  Lemma take_w k mi m : k_lock k mi = None -> ~ wholds (k_pc k) m -> kinv k ->
    (set1 (k_lock k) mi (Some Writer) m = Some Writer <-> mi = m).
  Proof.
    intros E H K. destruct (Nat.eq_dec m mi) as [->|N]; [rewrite set1_eq; tauto|].
    rewrite set1_neq by auto. rewrite (ki_w k K). split; [tauto|congruence].
  Qed.
  Lemma take_r k mi h m j : k_lock k mi = None -> (forall j, h <> Some (Reader j)) ->
    (set1 (k_lock k) mi h m = Some (Reader j) <-> k_lock k m = Some (Reader j)).
  Proof.
    intros E H. destruct (Nat.eq_dec m mi) as [->|N]; [|now rewrite set1_neq by auto].
    rewrite set1_eq, E. split; [intros ->; now elim (H j)|discriminate].
  Qed.
  Lemma give_r k mi m j : k_lock k mi = Some Writer ->
    (set1 (k_lock k) mi None m = Some (Reader j) <-> k_lock k m = Some (Reader j)).
  Proof.
    intros E. destruct (Nat.eq_dec m mi) as [->|N]; [|now rewrite set1_neq by auto].
    rewrite set1_eq, E. split; discriminate.
  Qed.
  Lemma give_w k mi m : (forall x, wholds (k_pc k) x -> x = mi) -> kinv k ->
    set1 (k_lock k) mi None m <> Some Writer.
  Proof.
    intros H K. destruct (Nat.eq_dec m mi) as [->|N]; [rewrite set1_eq; discriminate|].
    rewrite set1_neq by auto. rewrite (ki_w k K). intros X. apply H in X. auto.
  Qed.

  Lemma wstep_kinv k k' : kinv k -> wstep e k = Some k' -> kinv k'.
  Proof.
    intros K. pose proof (ki_pc k K) as P. unfold wstep.
    destruct (k_pc k) as [|p|p|p|p|mi|mi|mi d] eqn:Epc; cbn [pc_ok] in P.
    - destruct (k_todo k) as [|o t] eqn:Et; [discriminate|].
      assert (Ho : nth_error prog (List.length (k_results k)) = Some o).
      { rewrite (ki_todo k K) in Et. now apply skipn_hd in Et. }
      assert (Hw : forall mi, k_lock k mi <> Some Writer).
      { intros mi. rewrite (ki_w k K), Epc. cbn. tauto. }
      destruct (starts e (k_world k) o) as [p|mi|] eqn:Es.
      + intros [= <-]. apply went; auto; try discriminate; try tauto.
        * cbn. rewrite P in *. eauto.
        * intros mi. cbn. split; [apply Hw|tauto].
      + intros [= <-]. apply went; auto; try discriminate; try tauto.
        * cbn. rewrite P in *. eauto.
        * intros m. cbn. split; [apply Hw|tauto].
      + destruct (step e (k_world k) o) as [w1 r] eqn:Est. intros [= <-].
        eapply returned; eauto; [|tauto]. rewrite <- P. exact Est.
    - destruct (k_lock k (p_mi p)) eqn:El; [discriminate|]. rewrite (ki_poison k K).
      intros [= <-]. apply (went k); auto; try discriminate.
      + intros mi. cbn [wholds]. apply take_w; auto. rewrite Epc. cbn. tauto.
      + intros mi j. apply take_r; auto. discriminate.
    - intros [= <-]. apply (went k); auto; try discriminate; try tauto.
      + cbn. destruct P as [P1 ->]. auto.
      + intros mi. rewrite (ki_w k K), Epc. cbn. tauto.
    - destruct P as [(o & Ho & Hs) P]. destruct (starts_new _ _ _ _ Hs) as [Est Hoc].
      rewrite P, Hoc. intros [= <-]. apply (went k); auto; try discriminate; try tauto.
      + cbn. split; eauto. destruct (at_more _ _ Ho) as [-> _]. now rewrite Est.
      + intros mi. rewrite (ki_w k K), Epc. cbn. tauto.
    - destruct P as [(o & Ho & Hs) P]. destruct (starts_new _ _ _ _ Hs) as [Est Hoc].
      assert (El : k_lock k (p_mi p) = Some Writer) by (apply (ki_w k K); now rewrite Epc).
      intros [= <-]. apply (returned k _ _ _ o); auto.
      + rewrite P. destruct (at_more _ _ Ho) as [-> _]. rewrite Est. cbn [fst]. f_equal. f_equal.
        cbn. rewrite app_length. cbn. lia.
      + intros mi. apply give_w; auto. intros x. rewrite Epc. cbn. auto.
      + intros mi j. now apply give_r.
    - destruct (k_lock k mi) eqn:El; [discriminate|]. rewrite (ki_poison k K).
      intros [= <-]. apply (went k); auto; try discriminate.
      + intros m. cbn [wholds]. apply take_w; auto. rewrite Epc. cbn. tauto.
      + intros m j. apply take_r; auto. discriminate.
    - intros [= <-]. apply (went k); auto; try discriminate; try tauto.
      + cbn. destruct P as [P1 ->]. auto.
      + intros m. rewrite (ki_w k K), Epc. cbn. tauto.
    - destruct P as ((o & Ho & Hs) & P & ->).
      assert (El : k_lock k mi = Some Writer) by (apply (ki_w k K); now rewrite Epc).
      intros [= <-]. apply (returned k _ _ _ o); auto.
      + rewrite P. now apply starts_look.
      + intros m. apply give_w; auto. intros x. rewrite Epc. cbn. auto.
      + intros m j. now apply give_r.
  Qed.

  (** ** Readers *)

  Lemma reading k L j q q' :
    kinv k -> nth_error (k_readers k) j = Some q -> q_mi q' = q_mi q ->
    reader_ok (List.length (k_results k)) (begun k) q' ->
    (forall mi, L mi = Some Writer <-> k_lock k mi = Some Writer) ->
    (forall mi i, i <> j -> (L mi = Some (Reader i) <-> k_lock k mi = Some (Reader i))) ->
    (forall mi, L mi = Some (Reader j) <-> q_mi q = mi /\ qholds (q_pc q')) ->
    kinv (mk_proc (k_world k) (k_pc k) (k_todo k) (k_results k) L (k_poison k) (upd (k_readers k) j (fun _ => q'))).
  Proof.
    intros K Hq Hm Hok Hw Hr Hj. split; cbn [k_todo k_results k_world k_pc k_lock k_poison k_readers]; try apply K.
    - intros mi. rewrite Hw. apply (ki_w k K).
    - intros mi i. destruct (Nat.eq_dec i j) as [->|N].
      + rewrite Hj, nth_upd_eq, Hq. cbn [option_map]. split.
        * intros [H1 H2]. exists q'. rewrite Hm. auto.
        * intros (x & [= <-] & H1 & H2). rewrite <- Hm. auto.
      + rewrite Hr by auto. rewrite nth_upd_ne by auto. apply (ki_r k K).
    - intros i x Hx. destruct (Nat.eq_dec j i) as [->|N].
      + rewrite nth_upd_eq, Hq in Hx. injection Hx as <-. exact Hok.
      + rewrite nth_upd_ne in Hx by auto. apply (ki_readers k K _ _ Hx).
    - rewrite <- (ki_who k K). rewrite map_upd_q with (q := q); auto.
  Qed.

  (** The data that a reader copies are those between two calls. *)
  Lemma copied k mi : kinv k -> ~ wholds (k_pc k) mi ->
    exists i, List.length (k_results k) <= i <= begun k /\ data_of (k_world k) mi = data_of (at_call i) mi.
  Proof.
    intros K H. pose proof (ki_pc k K) as P. unfold begun.
    destruct (k_pc k) as [|p|p|p|p|m|m|m d]; cbn [pc_ok wholds] in P, H.
    - exists (List.length (k_results k)). rewrite P. split; auto; lia.
    - exists (List.length (k_results k)). destruct P as [_ ->]. split; auto; lia.
    - exists (List.length (k_results k)). destruct P as [_ ->]. split; auto; lia.
    - exists (List.length (k_results k)). destruct P as [_ ->]. rewrite data_push by auto. split; auto; lia.
    - exists (S (List.length (k_results k))). destruct P as [_ ->]. split; auto; lia.
    - exists (List.length (k_results k)). destruct P as [_ ->]. split; auto; lia.
    - exists (List.length (k_results k)). destruct P as [_ ->]. split; auto; lia.
    - exists (List.length (k_results k)). destruct P as (_ & -> & _). split; auto; lia.
  Qed.

  Lemma rstep_kinv k j k' : kinv k -> rstep k j = Some k' -> kinv k'.
  Proof.
    intros K. unfold rstep. destruct (nth_error (k_readers k) j) as [q|] eqn:Eq; [|discriminate].
    pose proof (ki_readers k K _ _ Eq) as R. unfold reader_ok in R.
    assert (Lj : forall mi, k_lock k mi = Some (Reader j) <-> q_mi q = mi /\ qholds (q_pc q)).
    { intros mi. rewrite (ki_r k K). split; [|eauto]. intros (x & Hx & H1 & H2). rewrite Eq in Hx. now injection Hx as <-. }
    destruct (q_pc q) as [| | |d|d] eqn:Ep.
    - intros [= <-]. apply (reading k _ j q); auto; try tauto; cbn; auto.
    - destruct (k_lock k (q_mi q)) eqn:El; [discriminate|]. rewrite (ki_poison k K). intros [= <-].
      apply (reading k _ j q); auto; cbn [relock k_lock].
      + intros mi. destruct (Nat.eq_dec mi (q_mi q)) as [->|N]; [|now rewrite set1_neq by auto].
        rewrite set1_eq, El. split; discriminate.
      + intros mi i Hi. destruct (Nat.eq_dec mi (q_mi q)) as [->|N]; [|now rewrite set1_neq by auto].
        rewrite set1_eq, El. split; [congruence|discriminate].
      + intros mi. cbn. destruct (Nat.eq_dec mi (q_mi q)) as [->|N]; [rewrite set1_eq; tauto|].
        rewrite set1_neq by auto. rewrite Lj. cbn. split; [tauto|]. intros [<- _]. now elim N.
    - intros [= <-]. apply (reading k _ j q); auto; try tauto.
      unfold reader_ok. cbn [q_pc q_mi q_begun].
      destruct (copied k (q_mi q) K) as (i & Hi & E).
      { rewrite <- (ki_w k K). destruct (Lj (q_mi q)) as [_ ->]; [discriminate|]. now split. }
      exists i. split; [lia|exact E].
    - intros [= <-].
      assert (El : k_lock k (q_mi q) = Some (Reader j)) by (apply Lj; now split).
      apply (reading k _ j q); auto; cbn [relock k_lock].
      + unfold reader_ok. cbn [q_pc q_mi q_begun q_ended]. destruct R as (i & Hi & E). exists i. repeat split; auto; lia.
      + intros mi. destruct (Nat.eq_dec mi (q_mi q)) as [->|N]; [|now rewrite set1_neq by auto].
        rewrite set1_eq, El. split; discriminate.
      + intros mi i Hi. destruct (Nat.eq_dec mi (q_mi q)) as [->|N]; [|now rewrite set1_neq by auto].
        rewrite set1_eq, El. split; [discriminate|congruence].
      + intros mi. cbn. destruct (Nat.eq_dec mi (q_mi q)) as [->|N]; [rewrite set1_eq; split; [discriminate|tauto]|].
        rewrite set1_neq by auto. rewrite Lj. split; [intros [<- _]; now elim N|tauto].
    - discriminate.
  Qed.

  Lemma pstep_kinv k t k' : kinv k -> pstep e k t = Some k' -> kinv k'.
  Proof. destruct t; cbn; [apply wstep_kinv|apply rstep_kinv]. Qed.
  Lemma prun_kinv sched : forall k, kinv k -> kinv (prun e k sched).
  Proof.
    induction sched as [|t l IH]; intros k K; cbn; auto.
    destruct (pstep e k t) eqn:E; auto. apply IH. eapply pstep_kinv; eauto.
  Qed.

  (** ** Nobody waits for ever *)

  Definition wleft (pc : wpc) : nat :=
    match pc with
    | WIdle => 0 | WLock _ => 4 | WPush _ => 3 | WRegister _ => 2 | WUnlock _ => 1
    | WLook _ => 3 | WCopy _ => 2 | WLooked _ _ => 1
    end.
  Definition qleft (pc : qpc) : nat :=
    match pc with QNew => 4 | QLock => 3 | QCopy => 2 | QUnlock _ => 1 | QDone _ => 0 end.
  (** The steps that are left, at most *)
  Definition left (k : proc) : nat :=
    5 * List.length (k_todo k) + wleft (k_pc k) - (match k_pc k with WIdle => 0 | _ => 5 end)
    + list_sum (map (fun q => qleft (q_pc q)) (k_readers k)).

  Lemma qleft_upd l j q q' : nth_error l j = Some q -> qleft (q_pc q') < qleft (q_pc q) ->
    list_sum (map (fun q => qleft (q_pc q)) (upd l j (fun _ => q'))) < list_sum (map (fun q => qleft (q_pc q)) l).
  Proof.
    revert j. induction l as [|x l IH]; intros [|j] H L; cbn in *; try discriminate.
    - injection H as ->. unfold list_sum. lia.
    - specialize (IH j H L). unfold list_sum in *. lia.
  Qed.

  (** In the middle of a call, the call is still to be done. *)
  Lemma todo_busy k : kinv k -> k_pc k <> WIdle -> exists o t, k_todo k = o :: t.
  Proof.
    intros K N. pose proof (ki_pc k K) as P.
    assert (X : exists o, nth_error prog (List.length (k_results k)) = Some o).
    { destruct (k_pc k); cbn [pc_ok] in P; try (now elim N);
        try (destruct P as [(o & Ho & _) _]; eauto). }
    destruct X as [o Ho]. rewrite (ki_todo k K). destruct (skipn _ prog) as [|o' t] eqn:Et; eauto.
    exfalso. assert (X : List.length (skipn (List.length (k_results k)) prog) = 0) by now rewrite Et.
    rewrite skipn_length in X. assert (List.length (k_results k) < List.length prog) by (apply nth_error_Some; congruence). lia.
  Qed.

  Lemma pstep_left k t k' : kinv k -> pstep e k t = Some k' -> left k' < left k.
  Proof.
    intros K. destruct t as [|j]; cbn [pstep].
    - unfold wstep, left.
      assert (T : k_pc k <> WIdle -> exists n, List.length (k_todo k) = S n).
      { intros N. destruct (todo_busy k K N) as (o & t & ->). cbn. eauto. }
      destruct (k_pc k) as [|p|p|p|p|m|m|m d] eqn:Epc.
      + destruct (k_todo k) as [|o t] eqn:Et; [discriminate|].
        destruct (starts _ _ _); [intros [= <-]| intros [= <-]|destruct (step _ _ _); intros [= <-]];
          cbn -[Nat.mul list_sum]; rewrite Et; cbn [List.length tl]; lia.
      + destruct T as [n Hn]; [discriminate|]. destruct (k_lock k _); [discriminate|].
        destruct (k_poison k _); intros [= <-]; cbn -[Nat.mul list_sum]; [|lia].
        destruct (k_todo k); cbn -[Nat.mul list_sum] in *; lia.
      + destruct T as [n Hn]; [discriminate|]. intros [= <-]; cbn -[Nat.mul list_sum]. lia.
      + destruct T as [n Hn]; [discriminate|]. destruct (occupied _ _); intros [= <-]; cbn -[Nat.mul list_sum]; [|lia].
        destruct (k_todo k); cbn -[Nat.mul list_sum] in *; lia.
      + destruct T as [n Hn]; [discriminate|]. intros [= <-]; cbn -[Nat.mul list_sum]. destruct (k_todo k); cbn -[Nat.mul list_sum] in *; lia.
      + destruct T as [n Hn]; [discriminate|]. destruct (k_lock k _); [discriminate|].
        destruct (k_poison k _); intros [= <-]; cbn -[Nat.mul list_sum]; [|lia].
        destruct (k_todo k); cbn -[Nat.mul list_sum] in *; lia.
      + destruct T as [n Hn]; [discriminate|]. intros [= <-]; cbn -[Nat.mul list_sum]. lia.
      + destruct T as [n Hn]; [discriminate|]. intros [= <-]; cbn -[Nat.mul list_sum]. destruct (k_todo k); cbn -[Nat.mul list_sum] in *; lia.
    - unfold rstep, left. destruct (nth_error (k_readers k) j) as [q|] eqn:Eq; [|discriminate].
      assert (U : forall q', qleft (q_pc q') < qleft (q_pc q) ->
        list_sum (map (fun q => qleft (q_pc q)) (upd (k_readers k) j (fun _ => q'))) < list_sum (map (fun q => qleft (q_pc q)) (k_readers k)))
        by (intros q'; now apply qleft_upd).
      destruct (q_pc q) as [| | |d|d] eqn:Ep; try discriminate.
      + intros [= <-]. cbn -[Nat.mul list_sum]. apply Nat.add_lt_mono_l, U. cbn. lia.
      + destruct (k_lock k _); [discriminate|]. destruct (k_poison k _); intros [= <-]; cbn -[Nat.mul list_sum]; apply Nat.add_lt_mono_l, U; cbn; lia.
      + intros [= <-]. cbn -[Nat.mul list_sum]. apply Nat.add_lt_mono_l, U. cbn. lia.
      + intros [= <-]. cbn -[Nat.mul list_sum]. apply Nat.add_lt_mono_l, U. cbn. lia.
  Qed.

  (** Some thread can go on: the holder of a lock, if there is one. *)
  Lemma somebody k : kinv k -> finished k \/ exists t k', pstep e k t = Some k'.
  Proof.
    intros K.
    (* a reader with a lock *)
    destruct (Exists_dec (fun q => qholds (q_pc q)) (k_readers k)) as [H|H].
    { intros q. destruct (q_pc q); cbn; auto. }
    { right. apply Exists_exists in H. destruct H as (q & Hin & Hh).
      apply In_nth_error in Hin. destruct Hin as [j Hj]. exists (Reader j). cbn. unfold rstep. rewrite Hj.
      destruct (q_pc q); try destruct Hh; eauto. }
    assert (NR : forall mi j, k_lock k mi <> Some (Reader j)).
    { intros mi j. rewrite (ki_r k K). intros (q & Hq & _ & Hh). apply H.
      apply Exists_exists. exists q. split; auto. eapply nth_error_In, Hq. }
    assert (W : (exists k', wstep e k = Some k') \/ k_todo k = [] /\ k_pc k = WIdle).
    { assert (F : forall mi, ~ wholds (k_pc k) mi -> k_lock k mi = None).
      { intros mi Hn. rewrite <- (ki_w k K) in Hn. specialize (NR mi).
        destruct (k_lock k mi) as [[|j]|]; auto; [now elim Hn|now elim (NR j)]. }
      unfold wstep. destruct (k_pc k) as [|p|p|p|p|m|m|m d] eqn:Epc; cbn [wholds] in F.
      - destruct (k_todo k); auto. left. destruct (starts _ _ _); eauto. destruct (step _ _ _). eauto.
      - left. rewrite F by tauto. destruct (k_poison k _); eauto.
      - left. eauto.
      - left. destruct (occupied _ _); eauto.
      - left. eauto.
      - left. rewrite F by tauto. destruct (k_poison k _); eauto.
      - left. eauto.
      - left. eauto. }
    destruct W as [[k' W]|[W1 W2]]; [right; exists Writer; eauto|].
    destruct (Forall_Exists_dec (fun q => exists d, q_pc q = QDone d)) with (l := k_readers k) as [D|D].
    { intros q. destruct (q_pc q); eauto; right; intros [d0 X]; discriminate. }
    { left. split; auto. }
    right. apply Exists_exists in D. destruct D as (q & Hin & Hd).
    apply In_nth_error in Hin. destruct Hin as [j Hj]. exists (Reader j). cbn. unfold rstep. rewrite Hj.
    assert (F : k_lock k (q_mi q) = None).
    { specialize (NR (q_mi q)). pose proof (ki_w k K (q_mi q)) as X. rewrite W2 in X. cbn in X.
      destruct (k_lock k (q_mi q)) as [[|i]|]; auto; [tauto|now elim (NR i)]. }
    destruct (q_pc q); eauto.
    - rewrite F. destruct (k_poison k _); eauto.
    - elim Hd. eauto.
  Qed.
End Inv.

(** ** Rounds *)

Lemma prun_left e page prog rs sched : forall k, kinv e page prog rs k ->
  left (prun e k sched) <= left k
  /\ ((exists t k', In t sched /\ pstep e k t = Some k') -> left (prun e k sched) < left k).
Proof.
  induction sched as [|t l IH]; intros k K; cbn [prun]; [split; auto; intros (t & k' & [] & _)|].
  destruct (pstep e k t) as [k1|] eqn:E.
  - pose proof (pstep_left e page prog rs k t k1 K E). pose proof (pstep_kinv e page prog rs k t k1 K E) as K1.
    destruct (IH k1 K1). split; intros; lia.
  - destruct (IH k K) as [I1 I2]. split; auto. intros (t' & k' & [->|Hin] & Hs); [congruence|]. apply I2. eauto.
Qed.

Lemma prun_app e l1 l2 k : prun e k (l1 ++ l2) = prun e (prun e k l1) l2.
Proof. revert k. induction l1 as [|t l IH]; intros k; cbn; auto. destruct (pstep e k t); auto. Qed.

Lemma finished_stays e k l : finished k -> k_pc k = WIdle -> prun e k l = k.
Proof.
  intros [F1 F2] Hp. assert (S : forall t, pstep e k t = None).
  { intros [|j]; cbn.
    - unfold wstep. now rewrite Hp, F1.
    - unfold rstep. destruct (nth_error (k_readers k) j) as [q|] eqn:Eq; auto.
      rewrite Forall_forall in F2. destruct (F2 q) as [d ->]; auto. eapply nth_error_In, Eq. }
  induction l as [|t l IH]; cbn; auto. now rewrite S.
Qed.

Lemma finished_idle e page prog rs k : kinv e page prog rs k -> finished k -> k_pc k = WIdle.
Proof.
  intros K [F _]. assert (D : k_pc k = WIdle \/ k_pc k <> WIdle) by (destruct (k_pc k); auto; right; discriminate).
  destruct D as [D|D]; auto. destruct (todo_busy e page prog rs k K D) as (o & t & E). congruence.
Qed.

Lemma turns_finish e page prog rs turns : forall k, kinv e page prog rs k ->
  Forall (a_turn (List.length rs)) turns -> left k <= List.length turns ->
  finished (prun e k (List.concat turns)).
Proof.
  induction turns as [|l turns IH]; intros k K F L; cbn [List.concat].
  - cbn [prun]. destruct (somebody e page prog rs k K) as [|(t & k' & E)]; auto.
    pose proof (pstep_left e page prog rs k t k' K E). cbn [List.length] in L. lia.
  - inversion F as [|? ? Hl Ht]; subst. rewrite prun_app.
    destruct (somebody e page prog rs k K) as [Fin|(t & k' & E)].
    + pose proof (finished_idle _ _ _ _ _ K Fin) as Hp.
      rewrite (finished_stays e k l) by auto. now rewrite finished_stays.
    + apply IH; auto; [now apply prun_kinv|].
      destruct (prun_left e page prog rs l k K) as [_ D]. cbn [List.length] in L.
      assert (left (prun e k l) < left k); [|lia]. apply D. exists t, k'. split; auto.
      destruct t as [|j]; [apply Hl|]. apply Hl. cbn in E. unfold rstep in E.
      destruct (nth_error (k_readers k) j) eqn:Eq; [|discriminate].
      assert (X : j < List.length (k_readers k)) by (apply nth_error_Some; congruence).
      rewrite <- (ki_who _ _ _ _ _ K). now rewrite map_length.
Qed.

(** ** The data only grow *)

Lemma upd_twice {A} (l : list A) i f g : upd (upd l i f) i g = upd l i (fun x => g (f x)).
Proof. revert i. induction l as [|x l IH]; intros [|i]; cbn; auto. now rewrite IH. Qed.
Lemma mgrs_release e c w : w_mgrs (release e c w) = w_mgrs w.
Proof.
  unfold release. destruct (nth_error (w_contents w) c); auto. destruct (_ && _); reflexivity.
Qed.
Lemma mgrs_release_all e l w : w_mgrs (release_all e l w) = w_mgrs w.
Proof.
  unfold release_all. revert w. induction l as [|c l IH]; intros w; cbn; auto. now rewrite IH, mgrs_release.
Qed.
Lemma data_mgrs w w' mi : w_mgrs w' = w_mgrs w -> data_of w' mi = data_of w mi.
Proof. unfold data_of. now intros ->. Qed.
Lemma data_upd w w' i f mi : w_mgrs w' = upd (w_mgrs w) i f -> (forall m, m_data (f m) = m_data m) ->
  data_of w' mi = data_of w mi.
Proof.
  intros E H. unfold data_of. rewrite E. destruct (Nat.eq_dec i mi) as [->|N].
  - rewrite nth_upd_eq. destruct (nth_error (w_mgrs w) mi); cbn; auto. now rewrite H.
  - now rewrite nth_upd_ne.
Qed.

Lemma data_load mi l : forall i w, data_of (fst (load_data i l w)) mi = data_of w mi.
Proof.
  induction l as [|r l IH]; intros i w; cbn [load_data]; auto.
  destruct (load_one i r w) as [w1|] eqn:E; auto. rewrite IH. unfold load_one in E.
  destruct (nth_error (w_mgrs w) i) as [m|] eqn:Em; [|now injection E as <-].
  destruct (reg_get (m_reg m) (r_key r)) as [c|].
  - destruct (nth_error (w_contents w) c); [|now injection E as <-].
    destruct (str_eqb _ _); [now injection E as <-|discriminate].
  - injection E as <-. eapply data_upd; [reflexivity|]. reflexivity.
Qed.

Lemma data_step e w o mi : exists l, data_of (fst (step e w o)) mi = data_of w mi ++ l.
Proof.
  assert (Z : forall w', data_of w' mi = data_of w mi -> exists l, data_of w' mi = data_of w mi ++ l).
  { intros w' ->. exists []. now rewrite app_nil_r. }
  destruct o; cbn [step].
  - apply Z. unfold build.
    assert (B : forall c, data_of (with_mhandles (with_mgrs w (w_mgrs w ++
          [mk_mgr prefix c append (if static then Some [] else None) [] 1]))
       (w_mhandles w ++ [Some (List.length (w_mgrs w))])) mi = data_of w mi).
    { intros c. unfold data_of. cbn. destruct (Nat.lt_ge_cases mi (List.length (w_mgrs w))) as [L|L].
      - now rewrite nth_error_app1.
      - rewrite nth_error_app2 by auto. rewrite (proj2 (nth_error_None (w_mgrs w) mi)) by auto.
        destruct (mi - _) as [|[|x]]; cbn; auto. destruct static; auto. }
    destruct (e_wasm e); [|apply B]. destruct cont; [apply B|]. destruct (e_document e); auto.
    destruct (e_head e); auto. apply B.
  - apply Z. unfold clone_manager. destruct (handle_of _ _); auto. eapply data_upd; reflexivity.
  - apply Z. unfold drop_manager. destruct (handle_of _ _) as [i|]; auto.
    destruct (nth_error (w_mgrs w) i) as [m|]; auto. destruct (_ =? 0); cbn [fst].
    + erewrite data_mgrs by apply mgrs_release_all. eapply data_upd; reflexivity.
    + eapply data_upd; reflexivity.
  - destruct (handle_of _ _) as [i|]; [|now apply Z]. unfold get_or_register.
    destruct (nth_error (w_mgrs w) i) as [m|] eqn:Em; [|now apply Z].
    destruct (reg_get (m_reg m) k) as [c|]; [now apply Z|].
    destruct (_ && _); [now apply Z|]. destruct (m_data m) as [l|] eqn:Ed; cbn [fst].
    + unfold data_of. cbn. rewrite upd_twice. destruct (Nat.eq_dec i mi) as [->|N].
      * rewrite nth_upd_eq, Em. cbn. rewrite Ed. eauto.
      * rewrite nth_upd_ne by auto. exists []. now rewrite app_nil_r.
    + apply Z. destruct (mount _ _ _ _ _); cbn [fst]; auto. eapply data_upd; reflexivity.
  - apply Z. unfold clone_style. now destruct (handle_of _ _).
  - apply Z. unfold drop_style. destruct (handle_of _ _); auto. cbn [fst]. now erewrite data_mgrs by apply mgrs_release.
  - apply Z. unfold unregister_style. destruct (handle_of _ _) as [c|]; auto.
    destruct (nth_error (w_contents w) c) as [x|]; auto. destruct (nth_error (w_mgrs w) (c_mgr x)) as [m|]; auto.
    destruct (_ =? 0); auto. destruct (reg_remove _ _) as [r o]. cbn [fst].
    destruct o; [erewrite data_mgrs by apply mgrs_release|]; eapply data_upd; reflexivity.
  - apply Z. destruct (handle_of _ _); auto. apply data_load.
  - apply Z. now destruct (handle_of _ _).
  - now apply Z.
  - now apply Z.
Qed.

Lemma data_run e l : forall w mi, exists x, data_of (fst (run e w l)) mi = data_of w mi ++ x.
Proof.
  induction l as [|o l IH]; intros w mi; cbn [run].
  - exists []. now rewrite app_nil_r.
  - destruct (data_step e w o mi) as [x Hx]. destruct (step e w o) as [w1 r]. destruct (IH w1 mi) as [y Hy].
    destruct (run e w1 l). cbn [fst] in *. exists (x ++ y). now rewrite Hy, Hx, app_assoc.
Qed.

Lemma data_later e page prog i j mi : i <= j ->
  exists x, data_of (at_call e page prog j) mi = data_of (at_call e page prog i) mi ++ x.
Proof.
  intros H. unfold at_call. rewrite <- (firstn_skipn i (firstn j prog)).
  rewrite firstn_firstn, Nat.min_l by auto.
  assert (R : forall l1 l2 w, fst (run e w (l1 ++ l2)) = fst (run e (fst (run e w l1)) l2)).
  { induction l1 as [|o l1 IH]; intros l2 w; cbn; auto. destruct (step e w o) as [w1 r].
    specialize (IH l2 w1). destruct (run e w1 (l1 ++ l2)), (run e w1 l1). exact IH. }
  rewrite R. apply data_run.
Qed.
