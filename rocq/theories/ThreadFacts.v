(** * ThreadFacts: the invariant of the interleaved threads. *)

From Coq Require Import List NArith Bool Arith Lia Permutation.
From Verif Require Import Str StrFacts Ast CssParser SheetCache Ids Manager ManagerFacts Threads SpecThreads.
Import ListNotations.
Local Open Scope nat_scope.

Definition holds (p : pc) : Prop :=
  match p with PGet _ | PParse _ | PInsert _ _ | PReturn _ _ => True | _ => False end.
Definition pc_fact (c : cache) (p : pc) : Prop :=
  match p with
  | PParse s => cache_get c s = None
  | PInsert s v => parse s = Parsed v /\ cache_get c s = None
  | PReturn s r => r = parse s
  | _ => True
  end.
Definition pc_call (p : pc) : option call :=
  match p with
  | PIdle => None
  | PLock s | PGet s | PParse s | PInsert s _ | PReturn s _ => Some (KParse s)
  | PForce i | PInit i => Some (KStatic i)
  end.

Record tinv (inits : list sheet) (m : machine) (t : nat) (th : thread) : Prop :=
  { ti_lock : holds (t_pc th) <-> m_lock m = Some t;
    ti_pc : pc_fact (m_cache m) (t_pc th);
    ti_call : forall c, pc_call (t_pc th) = Some c -> hd_error (t_todo th) = Some c;
    ti_cell : forall i, t_pc th = PInit i <-> nth_error (m_cells m) i = Some (CBusy t);
    ti_done : Forall (fun ca => right_answer inits (fst ca) (snd ca)) (t_done th) }.

Record ginv (inits : list sheet) (m : machine) : Prop :=
  { gi_cache : forall s v, cache_get (m_cache m) s = Some v -> parse s = Parsed v;
    gi_cells : List.length (m_cells m) = List.length inits;
    gi_ready : forall i v, nth_error (m_cells m) i = Some (CReady v) -> nth_error inits i = Some v;
    gi_lock : forall t, m_lock m = Some t -> t < List.length (m_threads m);
    gi_busy : forall i t, nth_error (m_cells m) i = Some (CBusy t) -> t < List.length (m_threads m);
    gi_built : NoDup (m_built m);
    gi_built_ready : forall i, In i (m_built m) -> exists v, nth_error (m_cells m) i = Some (CReady v);
    gi_parsed : NoDup (filter parses (m_parsed m));
    gi_parsed_cached : forall s, In s (m_parsed m) -> parses s = true ->
      cache_get (m_cache m) s <> None
      \/ exists t th v, nth_error (m_threads m) t = Some th /\ t_pc th = PInsert s v;
    gi_ids : Permutation (ids_of m) (map counter_entropy (seq 0 (m_counter m))) }.

Record inv (inits : list sheet) (work : list (list call)) (m : machine) : Prop :=
  { in_g : ginv inits m;
    in_t : forall t th, nth_error (m_threads m) t = Some th -> tinv inits m t th;
    in_work : map (fun th => map fst (t_done th) ++ t_todo th) (m_threads m) = work }.

Lemma cache_get_insert c k v k' :
  cache_get (cache_insert c k v) k' = if str_eqb k k' then Some v else cache_get c k'.
Proof.
  induction c as [|[k0 v0] c IH]; cbn; auto.
  destruct (str_eqb k0 k) eqn:E; cbn.
  - apply str_eqb_eq in E. subst. destruct (str_eqb k k'); auto.
  - rewrite IH. destruct (str_eqb k0 k') eqn:E1; auto.
    apply str_eqb_eq in E1. subst. destruct (str_eqb k k') eqn:E2; auto.
    apply str_eqb_eq in E2. subst. rewrite str_eqb_refl in E. discriminate.
Qed.

Lemma map_upd_at {A B} (g : A -> B) l i f x :
  nth_error l i = Some x -> g (f x) = g x -> map g (upd l i f) = map g l.
Proof.
  revert i. induction l as [|y l IH]; intros [|i] E G; cbn in *; try discriminate.
  - injection E as ->. now rewrite G.
  - now rewrite (IH _ E G).
Qed.

Lemma flat_upd_same {A B} (g : A -> list B) l i f x :
  nth_error l i = Some x -> g (f x) = g x -> flat_map g (upd l i f) = flat_map g l.
Proof.
  revert i. induction l as [|y l IH]; intros [|i] E G; cbn in *; try discriminate.
  - injection E as ->. now rewrite G.
  - now rewrite (IH _ E G).
Qed.

Lemma flat_upd_more {A B} (g : A -> list B) l i f x b :
  nth_error l i = Some x -> g (f x) = g x ++ [b] ->
  Permutation (flat_map g (upd l i f)) (b :: flat_map g l).
Proof.
  revert i. induction l as [|y l IH]; intros [|i] E G; cbn in *; try discriminate.
  - injection E as ->. rewrite G, <- app_assoc. cbn. symmetry. apply Permutation_middle.
  - rewrite (IH _ E G). symmetry. apply Permutation_middle.
Qed.

(** A step of thread [t] that leads to the threads of [m'] keeps the invariant if the thread's own
    part holds again, the other threads' parts do not notice, and what is shared is right. *)
Lemma keep inits work m m' t th th' :
  inv inits work m -> nth_error (m_threads m) t = Some th ->
  m_threads m' = upd (m_threads m) t (fun _ => th') ->
  map fst (t_done th') ++ t_todo th' = map fst (t_done th) ++ t_todo th ->
  tinv inits m' t th' ->
  (forall t2, t2 <> t -> m_lock m' = Some t2 <-> m_lock m = Some t2) ->
  (m_cache m' = m_cache m \/ m_lock m = Some t) ->
  (forall t2 i, t2 <> t -> nth_error (m_cells m') i = Some (CBusy t2) <-> nth_error (m_cells m) i = Some (CBusy t2)) ->
  ginv inits m' -> inv inits work m'.
Proof.
  intros [G T W] E Em Ew Ht Hl Hc Hb Hg. split; auto.
  - intros t2 th2 E2. rewrite Em, nth_upd in E2. destruct (Nat.eqb_spec t t2) as [<-|Ne].
    + rewrite E in E2. cbn in E2. injection E2 as <-. exact Ht.
    + destruct (T _ _ E2) as [A B C D F]. split; auto.
      * rewrite (Hl t2) by auto. exact A.
      * destruct Hc as [->|Hc]; auto. destruct (t_pc th2) eqn:P; cbn; auto;
          exfalso; apply Ne; assert (X : m_lock m = Some t2) by (apply A; exact I); congruence.
      * intros i. rewrite (Hb t2 i) by auto. apply D.
  - rewrite Em. rewrite (map_upd_at _ _ _ _ th); auto.
Qed.

Lemma lt_upd {A} (l : list A) i f t : t < List.length l -> t < List.length (upd l i f).
Proof. now rewrite upd_length. Qed.

Lemma own_lt {A} (l : list A) t x : nth_error l t = Some x -> t < List.length l.
Proof. intros E. apply nth_error_Some. congruence. Qed.

(** The shared state stays right if nothing of it changes but the thread that has gone on. *)
Lemma ginv_goto inits m t th p l :
  ginv inits m -> nth_error (m_threads m) t = Some th ->
  (forall s v, t_pc th <> PInsert s v) ->
  (forall t, l = Some t -> t < List.length (m_threads m)) ->
  ginv inits (set_thread (set_lock m l) t (goto th p)).
Proof.
  intros [A B C D F G H I J K] E Np Hl. split; cbn; auto.
  - intros t0 L. apply lt_upd. auto.
  - intros i t0 L. apply lt_upd. eauto.
  - intros s Is Ps. destruct (J s Is Ps) as [X|(t2 & th2 & v & X & Y)]; auto. right.
    exists t2, th2, v. split; auto. rewrite nth_upd_ne; auto. intros <-. rewrite E in X. injection X as ->.
    eapply Np; eauto.
  - unfold ids_of in *. cbn. rewrite (flat_upd_same _ _ _ _ th); auto.
Qed.

Lemma ginv_finish inits m t th c a l :
  ginv inits m -> nth_error (m_threads m) t = Some th ->
  (forall s v, t_pc th <> PInsert s v) ->
  (forall s, a <> AId s) ->
  (forall t, l = Some t -> t < List.length (m_threads m)) ->
  ginv inits (set_thread (set_lock m l) t (finish th c a)).
Proof.
  intros [A B C D F G H I J K] E Np Na Hl. split; cbn; auto.
  - intros t0 L. apply lt_upd. auto.
  - intros i t0 L. apply lt_upd. eauto.
  - intros s Is Ps. destruct (J s Is Ps) as [X|(t2 & th2 & v & X & Y)]; auto. right.
    exists t2, th2, v. split; auto. rewrite nth_upd_ne; auto. intros <-. rewrite E in X. injection X as ->.
    eapply Np; eauto.
  - unfold ids_of in *. cbn. rewrite (flat_upd_same _ _ _ _ th); auto.
    unfold ids_of_thread. cbn. rewrite flat_map_app. cbn. destruct a; cbn; rewrite ?app_nil_r; auto.
    exfalso. eapply Na; eauto.
Qed.

Lemma set_lock_same m : set_lock m (m_lock m) = m.
Proof. now destruct m. Qed.

Lemma hd_split {A} (l : list A) c : hd_error l = Some c -> l = c :: tl l.
Proof. destruct l; cbn; congruence. Qed.

Lemma tstep_inv inits work m t m' :
  inv inits work m -> tstep inits m t = Some m' -> inv inits work m'.
Proof.
  intros Hi St. unfold tstep in St. destruct (nth_error (m_threads m) t) as [th|] eqn:E; [|discriminate].
  pose proof (in_g _ _ _ Hi) as G. pose proof (in_t _ _ _ Hi _ _ E) as [A B C D F].
  assert (Lt := own_lt _ _ _ E).
  destruct (t_pc th) eqn:P.
  - (* PIdle *)
    destruct (t_todo th) as [|[s| |i] rest] eqn:Td; [discriminate| | |]; injection St as <-.
    + apply (keep _ _ _ _ t th (goto th (PLock s)) Hi E); cbn; auto; try tauto.
      * split; cbn; auto; try tauto.
        -- intros c [= <-]. now rewrite Td.
        -- intros i. rewrite <- D. split; discriminate.
      * rewrite <- (set_lock_same m) at 1. apply ginv_goto; auto; [congruence|]. apply (gi_lock _ _ G).
    + apply (keep _ _ _ _ t th (finish th KDraw (AId (counter_entropy (m_counter m)))) Hi E); cbn; auto; try tauto.
      * rewrite map_app, <- app_assoc, Td. reflexivity.
      * split; cbn; auto; try tauto.
        -- discriminate.
        -- apply Forall_app. split; [exact F|repeat constructor].
      * destruct G as [GA GB GC GD GF GG GH GI GJ GK]. split; cbn; auto.
        -- intros t0 L. apply lt_upd; auto.
        -- intros i t0 L. apply lt_upd; eauto.
        -- intros s Is Ps. destruct (GJ s Is Ps) as [X|(t2 & th2 & v & X & Y)]; auto. right.
           exists t2, th2, v. split; auto. rewrite nth_upd_ne; auto. intros <-. congruence.
        -- unfold ids_of in *. cbn [m_threads set_thread].
           rewrite (flat_upd_more _ _ _ _ th (counter_entropy (m_counter m))); auto.
           ++ rewrite GK. transitivity (map counter_entropy (seq 0 (S (m_counter m)))); [|reflexivity].
              rewrite seq_S, map_app. apply Permutation_cons_append.
           ++ unfold ids_of_thread. cbn. now rewrite flat_map_app.
    + apply (keep _ _ _ _ t th (goto th (PForce i)) Hi E); cbn; auto; try tauto.
      * split; cbn; auto; try tauto.
        -- intros c [= <-]. now rewrite Td.
        -- intros j. rewrite <- D. split; discriminate.
      * rewrite <- (set_lock_same m) at 1. apply ginv_goto; auto; [congruence|]. apply (gi_lock _ _ G).
  - (* PLock *)
    destruct (m_lock m) as [o|] eqn:L; [discriminate|]. injection St as <-.
    apply (keep _ _ _ _ t th (goto th (PGet s)) Hi E); cbn; auto; try tauto.
    + split; cbn; auto; try tauto. intros i. rewrite <- D. split; discriminate.
    + intros t2 N. rewrite L. split; congruence.
    + apply ginv_goto; auto; [congruence|]. intros ? [= <-]; auto.
  - (* PGet *)
    assert (L : m_lock m = Some t) by (apply A; exact I).
    destruct (cache_get (m_cache m) s) as [v|] eqn:Cg; injection St as <-.
    + apply (keep _ _ _ _ t th (goto th (PReturn s (Parsed v))) Hi E); cbn; auto; try tauto.
      * split; cbn; auto; try tauto.
        -- symmetry. now apply (gi_cache _ _ G).
        -- intros i. rewrite <- D. split; discriminate.
      * rewrite <- (set_lock_same m) at 1. apply ginv_goto; auto; [congruence|]. apply (gi_lock _ _ G).
    + apply (keep _ _ _ _ t th (goto th (PParse s)) Hi E); cbn; auto; try tauto.
      * split; cbn; auto; try tauto.
        intros i. rewrite <- D. split; discriminate.
      * rewrite <- (set_lock_same m) at 1. apply ginv_goto; auto; [congruence|]. apply (gi_lock _ _ G).
  - (* PParse *)
    assert (L : m_lock m = Some t) by (apply A; exact I). cbn in B.
    assert (Nin : parses s = true -> ~ In s (m_parsed m)).
    { intros Ps Is. destruct (gi_parsed_cached _ _ G s Is Ps) as [X|(t2 & th2 & v & X & Y)]; [congruence|].
      assert (m_lock m = Some t2). { apply (ti_lock _ _ _ _ (in_t _ _ _ Hi _ _ X)). rewrite Y. exact I. }
      assert (t2 = t) by congruence. subst. congruence. }
    assert (G1 : forall p, (match parse s with Parsed v => p = PInsert s v | r => p = PReturn s r end) ->
                 ginv inits (set_thread (mk_machine (m_lock m) (m_cache m) (m_counter m) (m_cells m) (m_threads m) (s :: m_parsed m) (m_built m)) t (goto th p))).
    { intros p Hp. destruct G as [GA GB GC GD GF GG GH GI GJ GK]. split; cbn; auto.
      - intros t0 L0. apply lt_upd; auto.
      - intros i t0 L0. apply lt_upd; eauto.
      - destruct (parses s) eqn:Ps; auto. constructor; auto. rewrite filter_In. intros [X _]. now apply Nin.
      - intros s0 [<-|Is] Ps.
        + right. unfold parses in Ps. destruct (parse s) as [v| |] eqn:Pp; try discriminate.
          exists t, (goto th p), v. split; [|exact Hp]. rewrite nth_upd_eq, E. reflexivity.
        + destruct (GJ s0 Is Ps) as [X|(t2 & th2 & v & X & Y)]; auto. right.
          exists t2, th2, v. split; auto. rewrite nth_upd_ne; auto. intros <-. congruence.
      - unfold ids_of in *. cbn. rewrite (flat_upd_same _ _ _ _ th); auto. }
    destruct (parse s) as [v| |] eqn:Pp; injection St as <-.
    + apply (keep _ _ _ _ t th (goto th (PInsert s v)) Hi E); cbn; auto; try tauto.
      split; cbn; auto; try tauto. intros i. rewrite <- D. split; discriminate.
    + apply (keep _ _ _ _ t th (goto th (PReturn s Rejected)) Hi E); cbn; auto; try tauto.
      split; cbn; auto; try tauto. intros i. rewrite <- D. split; discriminate.
    + apply (keep _ _ _ _ t th (goto th (PReturn s OutOfFuel)) Hi E); cbn; auto; try tauto.
      split; cbn; auto; try tauto. intros i. rewrite <- D. split; discriminate.
  - (* PInsert *)
    assert (L : m_lock m = Some t) by (apply A; exact I). destruct B as [Bp Bc].
    injection St as <-.
    apply (keep _ _ _ _ t th (goto th (PReturn s (Parsed m0))) Hi E); cbn; auto; try tauto.
    + split; cbn; auto; try tauto. intros i. rewrite <- D. split; discriminate.
    + destruct G as [GA GB GC GD GF GG GH GI GJ GK]. split; cbn; auto.
      * intros s1 v1. rewrite cache_get_insert. destruct (str_eqb s s1) eqn:Es; auto.
        apply str_eqb_eq in Es. subst. now intros [= <-].
      * intros t0 L0. apply lt_upd; auto.
      * intros i t0 L0. apply lt_upd; eauto.
      * intros s1 Is Ps. left. rewrite cache_get_insert. destruct (str_eqb s s1) eqn:Es; [discriminate|].
        destruct (GJ s1 Is Ps) as [X|(t2 & th2 & v & X & Y)]; auto.
        assert (m_lock m = Some t2). { apply (ti_lock _ _ _ _ (in_t _ _ _ Hi _ _ X)). rewrite Y. exact I. }
        assert (t2 = t) by congruence. subst. rewrite E in X. injection X as ->. rewrite P in Y. injection Y as -> _.
        rewrite str_eqb_refl in Es. discriminate.
      * unfold ids_of in *. cbn. rewrite (flat_upd_same _ _ _ _ th); auto.
  - (* PReturn *)
    assert (L : m_lock m = Some t) by (apply A; exact I). cbn in B. injection St as <-.
    pose proof (hd_split _ _ (C _ eq_refl)) as Td.
    apply (keep _ _ _ _ t th (finish th (KParse s) (ASheet r)) Hi E); cbn; auto; try tauto.
    + rewrite map_app, <- app_assoc. cbn. now rewrite <- Td.
    + split; cbn; auto.
      * split; [tauto|discriminate].
      * discriminate.
      * intros i. rewrite <- D. split; discriminate.
      * apply Forall_app. split; auto.
    + intros t2 N. rewrite L. split; congruence.
    + apply ginv_finish; auto; congruence.
  - (* PForce *)
    pose proof (hd_split _ _ (C _ eq_refl)) as Td.
    destruct (nth_error (m_cells m) i) as [[|o|v]|] eqn:Ce; try discriminate; injection St as <-.
    + apply (keep _ _ _ _ t th (goto th (PInit i)) Hi E); cbn; auto; try tauto.
      * split; cbn; auto; try tauto.
        intros j. rewrite nth_upd. destruct (Nat.eqb_spec i j) as [<-|N].
        -- rewrite Ce. cbn. tauto.
        -- rewrite <- D. split; congruence.
      * intros t2 j N. rewrite nth_upd. destruct (Nat.eqb_spec i j) as [<-|N2]; [|tauto].
        rewrite Ce. cbn. split; congruence.
      * destruct G as [GA GB GC GD GF GG GH GI GJ GK]. split; cbn; auto.
        -- now rewrite upd_length.
        -- intros j v. rewrite nth_upd. destruct (Nat.eqb_spec i j) as [<-|N2]; auto. rewrite Ce. discriminate.
        -- intros t0 L0. apply lt_upd; auto.
        -- intros j t0. rewrite nth_upd. destruct (Nat.eqb_spec i j) as [<-|N2].
           ++ rewrite Ce. cbn. intros [= <-]. now apply lt_upd.
           ++ intros X. apply lt_upd; eauto.
        -- intros j Ij. destruct (GH j Ij) as (v & X). exists v. rewrite nth_upd_ne; auto. intros <-. congruence.
        -- intros s Is Ps. destruct (GJ s Is Ps) as [X|(t2 & th2 & v & X & Y)]; auto. right.
           exists t2, th2, v. split; auto. rewrite nth_upd_ne; auto. intros <-. congruence.
        -- unfold ids_of in *. cbn. rewrite (flat_upd_same _ _ _ _ th); auto.
    + apply (keep _ _ _ _ t th (finish th (KStatic i) (AStatic v)) Hi E); cbn; auto; try tauto.
      * rewrite map_app, <- app_assoc. cbn. now rewrite <- Td.
      * split; cbn; auto.
        -- discriminate.
        -- intros j. rewrite <- D. split; discriminate.
        -- apply Forall_app. split; auto. constructor; auto. cbn. now apply (gi_ready _ _ G).
      * rewrite <- (set_lock_same m) at 1. apply ginv_finish; auto; try congruence. apply (gi_lock _ _ G).
  - (* PInit *)
    destruct (nth_error inits i) as [v|] eqn:Iv; [|discriminate]. injection St as <-.
    assert (Ce : nth_error (m_cells m) i = Some (CBusy t)) by now apply D.
    apply (keep _ _ _ _ t th (goto th (PForce i)) Hi E); cbn; auto; try tauto.
    + split; cbn; auto.
      intros j. rewrite nth_upd. destruct (Nat.eqb_spec i j) as [<-|N].
      * rewrite Ce. cbn. split; congruence.
      * rewrite <- D. split; congruence.
    + intros t2 j N. rewrite nth_upd. destruct (Nat.eqb_spec i j) as [<-|N2]; [|tauto].
      rewrite Ce. cbn. split; congruence.
    + destruct G as [GA GB GC GD GF GG GH GI GJ GK]. split; cbn; auto.
      * now rewrite upd_length.
      * intros j v1. rewrite nth_upd. destruct (Nat.eqb_spec i j) as [<-|N2]; auto. rewrite Ce. cbn. congruence.
      * intros t0 L0. apply lt_upd; auto.
      * intros j t0. rewrite nth_upd. destruct (Nat.eqb_spec i j) as [<-|N2].
        -- rewrite Ce. cbn. discriminate.
        -- intros X. apply lt_upd; eauto.
      * constructor; auto. intros X. destruct (GH i X) as (v1 & Y). congruence.
      * intros j [<-|Ij].
        -- exists v. rewrite nth_upd_eq, Ce. reflexivity.
        -- destruct (GH j Ij) as (v1 & X). exists v1. rewrite nth_upd_ne; auto. intros <-. congruence.
      * intros s Is Ps. destruct (GJ s Is Ps) as [X|(t2 & th2 & v1 & X & Y)]; auto. right.
        exists t2, th2, v1. split; auto. rewrite nth_upd_ne; auto. intros <-. congruence.
      * unfold ids_of in *. cbn. rewrite (flat_upd_same _ _ _ _ th); auto.
Qed.

Lemma nth_map_const {A B} (l : list A) (b : B) i c : nth_error (map (fun _ => b) l) i = Some c -> c = b.
Proof. revert i. induction l; intros [|i]; cbn; try discriminate; eauto. congruence. Qed.

Lemma begin_inv inits work : inv inits work (begin inits work).
Proof.
  split.
  - split; cbn; try discriminate; try constructor; try tauto.
    + now rewrite map_length.
    + intros i v H. apply nth_map_const in H. discriminate.
    + intros i t H. apply nth_map_const in H. discriminate.
    + unfold ids_of. cbn. induction work; cbn; auto.
  - intros t th H. cbn in H. rewrite nth_error_map in H. destruct (nth_error work t) as [l|]; [|discriminate].
    injection H as <-. split; cbn; auto; try discriminate.
    + split; [tauto|discriminate].
    + intros i. split; [discriminate|]. intros H. apply nth_map_const in H. discriminate.
  - cbn. rewrite map_map. cbn. now rewrite map_id.
Qed.

Lemma trun_inv inits work sched : forall m, inv inits work m -> inv inits work (trun inits m sched).
Proof.
  induction sched as [|t l IH]; intros m H; cbn; auto.
  destruct (tstep inits m t) as [m1|] eqn:E; auto. apply IH. eapply tstep_inv; eauto.
Qed.

(** ** Going on *)

Definition pc_cost (p : pc) : nat :=
  match p with
  | PIdle => 0
  | PLock _ => 5 | PGet _ => 4 | PParse _ => 3 | PInsert _ _ => 2 | PReturn _ _ => 1
  | PForce _ | PInit _ => 1
  end.
Definition cost_list (l : list call) : nat := list_sum (map call_cost l).
Definition th_cost (th : thread) : nat :=
  match t_pc th with
  | PIdle => cost_list (t_todo th)
  | p => pc_cost p + cost_list (tl (t_todo th))
  end.
Definition cell_cost (c : cell) : nat := match c with CEmpty => 2 | CBusy _ => 1 | CReady _ => 0 end.
Definition cost (m : machine) : nat :=
  list_sum (map th_cost (m_threads m)) + list_sum (map cell_cost (m_cells m)).

Lemma sum_upd {A} (g : A -> nat) l i f x :
  nth_error l i = Some x -> list_sum (map g (upd l i f)) + g x = list_sum (map g l) + g (f x).
Proof.
  unfold list_sum. revert i. induction l as [|y l IH]; intros [|i] E; cbn in *; try discriminate.
  - injection E as ->. lia.
  - specialize (IH _ E). lia.
Qed.

Lemma cost_cons c l : cost_list (c :: l) = call_cost c + cost_list l.
Proof. reflexivity. Qed.

Lemma tstep_cost inits work m t m' :
  inv inits work m -> tstep inits m t = Some m' -> cost m' < cost m.
Proof.
  intros Hi St. unfold tstep in St. destruct (nth_error (m_threads m) t) as [th|] eqn:E; [|discriminate].
  pose proof (in_t _ _ _ Hi _ _ E) as [_ _ C D _].
  assert (Th : forall th' cells, m_threads m' = upd (m_threads m) t (fun _ => th') -> m_cells m' = cells ->
               th_cost th' + list_sum (map cell_cost cells) < th_cost th + list_sum (map cell_cost (m_cells m)) ->
               cost m' < cost m).
  { intros th' cells Em Ec Lt. unfold cost. rewrite Em, Ec.
    pose proof (sum_upd th_cost (m_threads m) t (fun _ => th') th E). lia. }
  assert (Td : forall c, pc_call (t_pc th) = Some c -> cost_list (t_todo th) = call_cost c + cost_list (tl (t_todo th))).
  { intros c Hc. rewrite (hd_split _ _ (C _ Hc)) at 1. reflexivity. }
  destruct (t_pc th) eqn:P; cbn in Td.
  - destruct (t_todo th) as [|[s| |i] rest] eqn:T; [discriminate| | |]; injection St as <-;
      eapply Th; try reflexivity; unfold th_cost; cbn -[list_sum cost_list]; rewrite ?P, ?T; cbn -[list_sum cost_list]; rewrite ?cost_cons; cbn -[list_sum cost_list]; lia.
  - destruct (m_lock m); [discriminate|]. injection St as <-.
    eapply Th; try reflexivity; unfold th_cost; cbn -[list_sum cost_list]; rewrite ?P; cbn -[list_sum cost_list]; lia.
  - destruct (cache_get (m_cache m) s); injection St as <-;
      eapply Th; try reflexivity; unfold th_cost; cbn -[list_sum cost_list]; rewrite ?P; cbn -[list_sum cost_list]; lia.
  - destruct (parse s); injection St as <-;
      eapply Th; try reflexivity; unfold th_cost; cbn -[list_sum cost_list]; rewrite ?P; cbn -[list_sum cost_list]; lia.
  - injection St as <-. eapply Th; try reflexivity; unfold th_cost; cbn -[list_sum cost_list]; rewrite ?P; cbn -[list_sum cost_list]; lia.
  - injection St as <-. eapply Th; try reflexivity; unfold th_cost; cbn -[list_sum cost_list]; rewrite ?P; cbn -[list_sum cost_list]; lia.
  - destruct (nth_error (m_cells m) i) as [[|o|v]|] eqn:Ce; try discriminate; injection St as <-;
      eapply Th; try reflexivity; unfold th_cost; cbn -[list_sum cost_list]; rewrite ?P; cbn -[list_sum cost_list]; try lia.
    pose proof (sum_upd cell_cost (m_cells m) i (fun _ => CBusy t) _ Ce) as X. cbn -[list_sum] in X. lia.
  - destruct (nth_error inits i) as [v|] eqn:Iv; [|discriminate]. injection St as <-.
    assert (Ce : nth_error (m_cells m) i = Some (CBusy t)) by now apply D.
    eapply Th; try reflexivity; unfold th_cost; cbn -[list_sum cost_list]; rewrite ?P; cbn -[list_sum cost_list]; try lia.
    pose proof (sum_upd cell_cost (m_cells m) i (fun _ => CReady v) _ Ce) as X. cbn -[list_sum] in X. lia.
Qed.

Lemma cost_begin inits work : cost (begin inits work) = total_cost inits work.
Proof.
  unfold cost, total_cost. cbn [begin m_threads m_cells]. rewrite !map_map.
  assert (X : list_sum (map (fun _ : sheet => cell_cost CEmpty) inits) = 2 * List.length inits).
  { clear. induction inits as [|x l IH]; [reflexivity|]. change (list_sum (map (fun _ : sheet => cell_cost CEmpty) (x :: l)))
      with (2 + list_sum (map (fun _ : sheet => cell_cost CEmpty) l)). rewrite IH. cbn [List.length]. lia. }
  rewrite X. reflexivity.
Qed.

(** If a thread has something to do, some thread can go on. *)
Lemma not_stuck inits work m :
  inv inits work m -> statics_exist inits work ->
  (forall t, t < List.length (m_threads m) -> tstep inits m t = None) -> all_done m.
Proof.
  intros Hi Se St t th E. assert (Lt := own_lt _ _ _ E).
  (* nobody has the lock and nobody builds *)
  assert (Stuck : forall t0 th0, nth_error (m_threads m) t0 = Some th0 ->
            match t_pc th0 with
            | PIdle => t_todo th0 = []
            | PLock _ => m_lock m <> None
            | PForce i => exists t', nth_error (m_cells m) i = Some (CBusy t')
            | _ => False end).
  { intros t0 th0 E0. pose proof (St t0 (own_lt _ _ _ E0)) as X. unfold tstep in X. rewrite E0 in X.
    pose proof (in_t _ _ _ Hi _ _ E0) as [_ _ C D _].
    assert (Sx : forall i, pc_call (t_pc th0) = Some (KStatic i) -> i < List.length inits).
    { intros i Hc. apply (Se (map fst (t_done th0) ++ t_todo th0)).
      - rewrite <- (in_work _ _ _ Hi). apply (in_map (fun th => map fst (t_done th) ++ t_todo th)).
        eapply nth_error_In; eauto.
      - apply in_or_app. right. specialize (C _ Hc). destruct (t_todo th0); cbn in C; [discriminate|].
        injection C as ->. now left. }
    destruct (t_pc th0) eqn:P0; try discriminate.
    - destruct (t_todo th0) as [|[| |] ?]; auto; discriminate.
    - destruct (m_lock m); discriminate.
    - destruct (cache_get (m_cache m) s); discriminate.
    - destruct (parse s); discriminate.
    - specialize (Sx i eq_refl).
      destruct (nth_error (m_cells m) i) as [[|t'|v]|] eqn:Ce; try discriminate; eauto.
      apply nth_error_None in Ce. rewrite (gi_cells _ _ (in_g _ _ _ Hi)) in Ce. lia.
    - specialize (Sx i eq_refl). destruct (nth_error inits i) eqn:Iv; [discriminate|].
      apply nth_error_None in Iv. lia. }
  assert (Nl : m_lock m = None).
  { destruct (m_lock m) as [o|] eqn:L; auto. exfalso.
    pose proof (gi_lock _ _ (in_g _ _ _ Hi) _ L) as Lo. apply nth_error_Some in Lo.
    destruct (nth_error (m_threads m) o) as [tho|] eqn:Eo; [|congruence].
    pose proof (Stuck _ _ Eo) as X. pose proof (ti_lock _ _ _ _ (in_t _ _ _ Hi _ _ Eo)) as Y.
    assert (H : holds (t_pc tho)) by now apply Y. destruct (t_pc tho); cbn in H; auto. }
  pose proof (Stuck _ _ E) as X. destruct (t_pc th); auto; try tauto.
  destruct X as (o & Ce). exfalso.
  pose proof (gi_busy _ _ (in_g _ _ _ Hi) _ _ Ce) as Lo. apply nth_error_Some in Lo.
  destruct (nth_error (m_threads m) o) as [tho|] eqn:Eo; [|congruence].
  pose proof (Stuck _ _ Eo) as X. pose proof (ti_cell _ _ _ _ (in_t _ _ _ Hi _ _ Eo)) as Y.
  assert (H : t_pc tho = PInit i) by now apply Y. now rewrite H in X.
Qed.

Lemma trun_app inits l1 : forall m l2, trun inits m (l1 ++ l2) = trun inits (trun inits m l1) l2.
Proof. induction l1 as [|t l IH]; intros m l2; cbn; auto. destruct (tstep inits m t); auto. Qed.

Lemma trun_cost inits work sched : forall m, inv inits work m ->
  cost (trun inits m sched) <= cost m.
Proof.
  induction sched as [|t l IH]; intros m H; cbn; auto.
  destruct (tstep inits m t) as [m1|] eqn:E; auto.
  pose proof (tstep_cost _ _ _ _ _ H E). pose proof (tstep_inv _ _ _ _ _ H E) as H1. specialize (IH _ H1). lia.
Qed.

Lemma round_cost inits work l : forall m, inv inits work m ->
  cost (trun inits m l) < cost m \/ (trun inits m l = m /\ forall t, In t l -> tstep inits m t = None).
Proof.
  induction l as [|t l IH]; intros m H; cbn.
  - right. split; auto. intros t [].
  - destruct (tstep inits m t) as [m1|] eqn:E.
    + left. pose proof (tstep_cost _ _ _ _ _ H E). pose proof (tstep_inv _ _ _ _ _ H E) as H1.
      pose proof (trun_cost _ _ l _ H1). lia.
    + destruct (IH _ H) as [X|[X Y]]; auto. right. split; auto. intros t0 [<-|I]; auto.
Qed.

Lemma done_stays inits work t m m' :
  inv inits work m -> all_done m -> tstep inits m t = Some m' -> False.
Proof.
  intros Hi Ad St. unfold tstep in St. destruct (nth_error (m_threads m) t) as [th|] eqn:E; [|discriminate].
  pose proof (Ad _ _ E) as Td. pose proof (ti_call _ _ _ _ (in_t _ _ _ Hi _ _ E)) as C. rewrite Td in C. cbn in C.
  destruct (t_pc th); cbn in C; try (specialize (C _ eq_refl); discriminate). rewrite Td in St. discriminate.
Qed.

Lemma trun_done inits work l : forall m, inv inits work m -> all_done m -> trun inits m l = m.
Proof.
  induction l as [|t l IH]; intros m Hi Ad; cbn; auto.
  destruct (tstep inits m t) as [m1|] eqn:E; auto. exfalso. eapply done_stays; eauto.
Qed.

Lemma threads_length inits work m : inv inits work m -> List.length (m_threads m) = List.length work.
Proof. intros H. rewrite <- (in_work _ _ _ H). now rewrite map_length. Qed.

Lemma rounds_finish inits work rounds : statics_exist inits work ->
  Forall (a_round (List.length work)) rounds ->
  forall m, inv inits work m -> cost m < List.length rounds ->
  all_done (trun inits m (List.concat rounds)).
Proof.
  intros Se. induction rounds as [|l rs IH]; intros F m Hi Lt; cbn in *; [lia|].
  inversion F as [|? ? Fl Fr]; subst. rewrite trun_app.
  destruct (round_cost inits work l m Hi) as [X|[X Y]].
  - apply IH; auto; [now apply trun_inv|lia].
  - rewrite X. assert (Ad : all_done m).
    { apply (not_stuck inits work); auto. intros t Ht. apply Y. apply Fl.
      now rewrite <- (threads_length _ _ _ Hi). }
    now rewrite (trun_done _ work).
Qed.
