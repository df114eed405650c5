(** * LivingFacts: what the events of a living application do. *)

From Coq Require Import String Ascii List NArith Bool Arith Lia Permutation.
From Verif Require Import Str StrFacts Ast Render CssParser SheetCache Ids IdFacts Manager SpecManager
  ManagerFacts ManagerInv ManagerSteps ManagerCore ManagerProps Hydrate Hooks SpecHooks HookFacts HookOnly
  HookTame HookKeep PropsManager SpecProgress PropsProgress Create SpecCreate CreateFacts
  Component SpecComponent ComponentFacts PropsHydrate Provider ProviderFacts PropsComponent Tree SpecTree
  TreeFacts Living SpecLiving.
Import ListNotations.
Local Open Scope list_scope.
Local Opaque parse to_style_str.

Notation wd p := (a_world (p_app p)).
Notation mh p := (manager_handles (p_app p)).
Definition in_world (p : prog) (w : world) : prog := mk_prog (with_world (p_app p) w) (p_cache p).

(** ** Changes of a program

    [t] are the manager handles dropped, [f] the new ones; if [G] holds nothing else has changed
    among the owners, except that there may be a default manager now. *)
Definition change (e : env) (page : dom) (ids : list str) (p : prog) (ids1 : list str) (p1 : prog)
    (t f : list nat) (G : Prop) : Prop :=
  pgood e page ids1 p1 /\ steps e (wd p) (wd p1)
  /\ (forall d, a_default (p_app p) = Some d -> a_default (p_app p1) = Some d)
  /\ (forall h mi, ~ In h t -> owns (wd p) h mi -> ~ In h (mh p) -> owns (wd p1) h mi /\ ~ In h (mh p1))
  /\ (forall h, In h f -> List.length (w_mhandles (wd p)) <= h /\ ~ In h (mh p1) /\ exists mi, owns (wd p1) h mi)
  /\ (G -> (forall h mi, owns (wd p1) h mi -> (owns (wd p) h mi /\ ~ In h t) \/ In h f \/ a_default (p_app p1) = Some h)
        /\ (forall h mi, ~ In h t -> owns (wd p) h mi -> owns (wd p1) h mi)).

Lemma change_refl e page ids p G : pgood e page ids p -> change e page ids p ids p [] [] G.
Proof.
  intros P. split; auto. split; [apply steps_refl|]. split; auto. split; auto. split; [easy|]. intros _. split; auto.
Qed.
Lemma change_trans e page ids p ids1 p1 ids2 p2 t1 f1 t2 f2 G1 G2 :
  change e page ids p ids1 p1 t1 f1 G1 -> change e page ids1 p1 ids2 p2 t2 f2 G2 -> (forall h, In h f1 -> ~ In h t2) ->
  change e page ids p ids2 p2 (t1 ++ t2) (f1 ++ f2) (G1 /\ G2).
Proof.
  intros (A1 & A2 & A3 & A4 & A5 & A6) (B1 & B2 & B3 & B4 & B5 & B6) N.
  pose proof (passes_steps _ _ _ A2) as [Ln _].
  split; auto. split; [eapply steps_trans; eauto|]. split; [auto|]. split; [|split].
  - intros h mi Nt O M. rewrite in_app_iff in Nt. destruct (A4 h mi) as [X Y]; [tauto|exact O|exact M|]. apply B4; [tauto|exact X|exact Y].
  - intros h I. apply in_app_or in I. destruct I as [I|I].
    + destruct (A5 h I) as (X & Y & mi & Z). split; auto. destruct (B4 h mi (N h I) Z Y) as [U V]. split; [exact V|exists mi; exact U].
    + destruct (B5 h I) as (X & Y & Z). split; [lia|auto].
  - intros [g1 g2]. destruct (A6 g1) as [X1 X2]. destruct (B6 g2) as [Y1 Y2]. split.
    + intros h mi O. destruct (Y1 h mi O) as [[O1 N1]|[I|D]]; [|right; left; apply in_or_app; now right|auto].
      destruct (X1 h mi O1) as [[O2 N2]|[I|D]]; [left; split; auto; rewrite in_app_iff; tauto|right; left; apply in_or_app; now left|right; right; auto].
    + intros h mi Nt O. rewrite in_app_iff in Nt. apply Y2; [tauto|]. apply X2; [tauto|exact O].
Qed.
Lemma change_weaken e page ids p ids1 p1 t f t' f' (G G' : Prop) :
  change e page ids p ids1 p1 t f G -> (forall h, In h t <-> In h t') -> (forall h, In h f <-> In h f') -> (G' -> G) ->
  change e page ids p ids1 p1 t' f' G'.
Proof.
  intros (A1 & A2 & A3 & A4 & A5 & A6) Et Ef Eg. split; auto. split; auto. split; auto. split; [|split].
  - intros h mi N. apply A4. now rewrite Et.
  - intros h I. apply A5. now apply Ef.
  - intros g. destruct (A6 (Eg g)) as [X Y]. split.
    + intros h mi O. rewrite <- Et, <- Ef. eauto.
    + intros h mi N. apply Y. now rewrite Et.
Qed.

(** *** The pieces *)

Lemma in_world_good e page ids ids1 p w :
  pgood e page ids p -> good e page ids1 w (guards (p_app p)) (dflt (p_app p)) -> steps e (wd p) w ->
  pgood e page ids1 (in_world p w).
Proof.
  intros (K & G & D) Gw Sw. split; [exact K|]. split; [exact Gw|]. cbn [p_app in_world]. destruct (a_default (p_app p)) as [dd|] eqn:Ed.
  - eapply default_stays; eauto.
  - intros dd X. cbn in X. congruence.
Qed.
Lemma world_app_fresh e page ids p h : pgood e page ids p -> List.length (w_mhandles (wd p)) <= h -> ~ In h (mh p).
Proof. intros (_ & G & _). apply (app_fresh _ _ _ _ _ G). Qed.

Lemma change_clone e page ids p h w c :
  pgood e page ids p -> clone_handle e h (wd p) = Some (w, c) -> change e page ids p ids (in_world p w) [] [c] True.
Proof.
  intros P H. pose proof P as (_ & G & _). destruct (clone_handle_spec _ _ _ _ _ _ _ _ _ G H) as (G1 & S1 & _).
  destruct (clone_owns _ _ _ _ _ H) as (E1 & E2 & E3 & E4).
  assert (P1 : pgood e page ids (in_world p w)) by (eapply in_world_good; eauto).
  unfold clone_handle in H. destruct (step e (wd p) (OCloneManager h)) as [w0 [x| | | | |]] eqn:S; try discriminate. injection H as -> ->.
  destruct (clone_frame _ _ _ _ _ S) as (_ & _ & _ & F4 & mj & F5 & F6).
  assert (Oc : owns w c mj) by (apply E4; exact F5).
  split; auto. split; [exact S1|]. split; [auto|]. split; [|split].
  - intros j mi _ O N. split; [now apply E3|exact N].
  - intros j [<-|[]]. split; [lia|]. split; [change (mh (in_world p w)) with (mh p); eapply world_app_fresh; [exact P|lia]|]. exists mj. exact Oc.
  - intros _. split; [|intros j mi _; apply E3]. intros j mi O. cbn in O. unfold owns in O. rewrite F6, handle_app_eq in O.
    destruct (Nat.eqb_spec j (List.length (w_mhandles (wd p)))) as [->|Nj]; [right; left; left; congruence|]. left. split; [exact O|easy].
Qed.
Lemma drop_exact e w h j : cored e w -> handle_of (w_mhandles (fst (step e w (ODropManager h)))) j = if Nat.eqb h j then None else handle_of (w_mhandles w) j.
Proof.
  intros C. destruct (drop_source_frame e w (mk_source [] (Some h) None) C) as (_ & _ & _ & D & _). specialize (D j).
  cbn [drop_source s_manager source_handles existsb] in D. now rewrite orb_false_r in D.
Qed.
Lemma change_drop e page ids p h :
  pgood e page ids p -> ~ In h (mh p) -> change e page ids p ids (in_world p (fst (step e (wd p) (ODropManager h)))) [h] [] True.
Proof.
  intros P N. pose proof P as (_ & G & _). pose proof (good_cored _ _ _ _ _ _ G) as C.
  assert (S : steps e (wd p) (fst (step e (wd p) (ODropManager h)))) by (apply steps_one; tm).
  assert (K : forall j mi, j <> h -> owns (wd p) j mi -> owns (fst (step e (wd p) (ODropManager h))) j mi).
  { intros j mi Nj O. unfold owns. rewrite drop_exact by exact C. destruct (Nat.eqb_spec h j); [congruence|exact O]. }
  split; [|split; [exact S|split; [auto|split; [|split; [easy|]]]]].
  - eapply in_world_good; [exact P| |exact S]. apply good_step; [exact G|reflexivity|discriminate|].
    intros j E. injection E as <-. rewrite <- app_owned. exact N.
  - intros j mi Nj O M. split; [apply K; auto; intros ->; apply Nj; now left|exact M].
  - intros _. split; [|intros j mi Nj; apply K; intros ->; apply Nj; now left].
    intros j mi O. change (owns (fst (step e (wd p) (ODropManager h))) j mi) in O. unfold owns in O. rewrite drop_exact in O by exact C. destruct (Nat.eqb_spec h j) as [|Nj]; [discriminate|].
    left. split; [exact O|]. intros [X|[]]. congruence.
Qed.
Lemma load_data_mhandles mi : forall l w, w_mhandles (fst (load_data mi l w)) = w_mhandles w.
Proof.
  induction l as [|r l IH]; intros w; cbn [load_data]; auto. destruct (load_one mi r w) as [w1|] eqn:E; [|reflexivity]. rewrite IH.
  unfold load_one in E. destruct (nth_error (w_mgrs w) mi); [|now injection E as <-]. destruct (reg_get _ _).
  - destruct (nth_error (w_contents w) _); [|now injection E as <-]. destruct (str_eqb _ _); [now injection E as <-|discriminate].
  - now injection E as <-.
Qed.
Lemma change_load e page ids p h d w :
  pgood e page ids p -> load_state e h d (wd p) = Some w ->
  exists ids1, change e page ids p ids1 (in_world p w) [] [] True /\ (d = None -> ids1 = ids).
Proof.
  intros P H. destruct d as [d|]; cbn [load_state] in H.
  - destruct (step e (wd p) (OLoad h d)) as [w1 [ ]] eqn:E; try discriminate. injection H as ->.
    assert (Ew : w = fst (step e (wd p) (OLoad h d))) by now rewrite E.
    assert (S : steps e (wd p) w) by (rewrite Ew; apply steps_one; tm).
    assert (K : forall j mi, owns (wd p) j mi -> owns w j mi) by (intros j mi O; unfold owns; rewrite Ew; apply step_mhandle_kept; [exact O|discriminate]).
    pose proof P as (_ & G & _). exists (ids ++ loaded_ids [OLoad h d]). split; [|discriminate].
    split; [|split; [exact S|split; [auto|split; [|split; [easy|]]]]].
    + eapply in_world_good; [exact P| |exact S]. rewrite Ew. apply good_step_any; [exact G|discriminate|discriminate].
    + intros j mi _ O M. split; [now apply K|exact M].
    + intros _. split; [|intros j mi _; apply K]. intros j mi O. left. split; [|easy]. change (owns w j mi) in O. unfold owns in *.
      assert (X : w_mhandles w = w_mhandles (wd p)); [|now rewrite X in O].
      rewrite Ew. destruct (step_mhandles e (wd p) (OLoad h d)) as [X|[(x & X)|(h' & X & _)]]; [exact X| |discriminate].
      exfalso. clear - X. cbn [step] in X. destruct (handle_of (w_mhandles (wd p)) h) as [mi|].
      * rewrite load_data_mhandles in X. apply (f_equal (@List.length _)) in X. rewrite app_length in X. cbn in X. lia.
      * cbn in X. apply (f_equal (@List.length _)) in X. rewrite app_length in X. cbn in X. lia.
  - injection H as <-. exists ids. split; auto. apply (change_refl e page ids p True) in P. exact P.
Qed.

(** *** A provider *)

Lemma change_provide e page ids p h d a1 v :
  pgood e page ids p -> provide e h d (p_app p) = Some (a1, v) ->
  exists ids1, change e page ids p ids1 (mk_prog a1 (p_cache p)) [] [v_context v; v_dep v] True
    /\ (d = None -> ids1 = ids) /\ v_data v = d /\ v_context v <> v_dep v
    /\ forall mi, owns (wd p) h mi -> owns (a_world a1) (v_context v) mi /\ owns (a_world a1) (v_dep v) mi.
Proof.
  intros P H. unfold provide in H. destruct (clone_handle e h (wd p)) as [[w1 c]|] eqn:C1; [|discriminate].
  destruct (clone_handle e h w1) as [[w2 dep]|] eqn:C2; [|discriminate].
  destruct (load_state e dep d w2) as [w3|] eqn:L; [|discriminate]. injection H as <- <-.
  pose proof (change_clone _ _ _ _ _ _ _ P C1) as X1. pose proof X1 as (P1 & _).
  pose proof (change_clone e page ids (in_world p w1) h w2 dep P1 C2) as X2. pose proof X2 as (P2 & _).
  destruct (change_load e page ids (in_world (in_world p w1) w2) dep d w3 P2 L) as (ids1 & X3 & E).
  destruct (clone_owns _ _ _ _ _ C1) as (A1 & A2 & A3 & A4). destruct (clone_owns _ _ _ _ _ C2) as (B1 & B2 & B3 & B4).
  pose proof (change_trans _ _ _ _ _ _ _ _ _ _ _ _ _ _ (change_trans _ _ _ _ _ _ _ _ _ _ _ _ _ _ X1 X2 (fun _ _ => id)) X3 (fun _ _ => id)) as X.
  exists ids1. cbn [v_context v_dep v_data]. split; [|split; [exact E|split; [reflexivity|split; [lia|]]]].
  - eapply change_weaken; [exact X|cbn; tauto|cbn; tauto|tauto].
  - intros mi O. destruct X3 as (_ & _ & _ & _ & _ & X3). destruct (X3 Logic.I) as [_ K]. split.
    + apply (K c mi); [easy|]. apply (B3 c mi), (A4 mi O).
    + apply (K dep mi); [easy|]. apply (B4 mi), (A3 h mi O).
Qed.

Lemma change_again y e page ids p v h mi0 mi a1 v1 :
  pgood e page ids p -> owns (wd p) (v_context v) mi0 -> owns (wd p) (v_dep v) mi0 -> owns (wd p) h mi ->
  ~ In (v_context v) (mh p) -> ~ In (v_dep v) (mh p) -> v_context v <> v_dep v -> h <> v_context v -> h <> v_dep v ->
  provide_again y e v h (p_app p) = Some (a1, v1) ->
  v_data v1 = v_data v /\ owns (a_world a1) (v_context v1) mi /\ owns (a_world a1) (v_dep v1) mi /\ v_context v1 <> v_dep v1
  /\ exists ids1 t f, change e page ids p ids1 (mk_prog a1 (p_cache p)) t f True
    /\ (v_data v = None -> ids1 = ids) /\ NoDup f /\ incl t [v_context v; v_dep v]
    /\ Permutation (t ++ [v_context v1; v_dep v1]) (f ++ [v_context v; v_dep v]).
Proof.
  intros P O1 O2 O N1 N2 Nd Nh1 Nh2 H. unfold provide_again in H.
  destruct (clone_handle e h (wd p)) as [[w1 c]|] eqn:C1; [|discriminate].
  pose proof (change_clone _ _ _ _ _ _ _ P C1) as X1. pose proof X1 as (P1 & _).
  destruct (clone_owns _ _ _ _ _ C1) as (A1 & A2 & A3 & A4).
  assert (Lc : v_context v < c /\ v_dep v < c /\ h < c) by (apply handle_lt in O1, O2, O; lia).
  destruct (same_manager w1 (v_dep v) h) eqn:Sm.
  - injection H as <- <-. cbn [v_data v_context v_dep].
    assert (mi0 = mi) as ->.
    { unfold same_manager in Sm. pose proof (A3 _ _ O2) as Y1. pose proof (A3 _ _ O) as Y2. unfold owns in Y1, Y2. rewrite Y1, Y2 in Sm. now apply Nat.eqb_eq. }
    assert (X2 : change e page ids (in_world p w1) ids (in_world (in_world p w1) (fst (step e (wd (in_world p w1)) (ODropManager (v_context v))))) [v_context v] [] True).
    { apply change_drop; [exact P1|exact N1]. }
    pose proof (change_trans _ _ _ _ _ _ _ _ _ _ _ _ _ _ X1 X2) as X. cbn [List.app] in X.
    destruct X2 as (_ & _ & _ & _ & _ & X2). destruct (X2 Logic.I) as [_ K].
    split; auto. split; [apply (K c mi); [intros [E|[]]; lia|]; apply (A4 mi O)|].
    split; [apply (K (v_dep v) mi); [intros [E|[]]; lia|]; apply (A3 _ mi O2)|]. split; [lia|].
    exists ids, [v_context v], [c]. split; [|split; [auto|split; [|split]]].
    + eapply change_weaken; [apply X|easy|easy|tauto]. intros j [<-|[]] [E|[]]. lia.
    + repeat constructor. easy.
    + intros j [<-|[]]. now left.
    + cbn. apply perm_swap.
  - destruct (clone_handle e h w1) as [[w2 dep]|] eqn:C2; [|discriminate]. cbv zeta in H.
    destruct (clone_owns _ _ _ _ _ C2) as (B1 & B2 & B3 & B4).
    pose proof (change_clone e page ids (in_world p w1) h w2 dep P1 C2) as X2. pose proof X2 as (P2 & _).
    pose proof (change_trans _ _ _ _ _ _ _ _ _ _ _ _ _ _ X1 X2 (fun _ _ => id)) as X12. cbn [List.app] in X12.
    set (p2 := in_world (in_world p w1) w2) in *.
    assert (Mid : exists w5 ids1, change e page ids p2 ids1 (in_world p2 w5) [v_dep v] [] True /\ (v_data v = None -> ids1 = ids)
              /\ Some (with_world (p_app p) (fst (step e w5 (ODropManager (v_context v)))), mk_provider c dep (v_data v)) = Some (a1, v1)).
    { destruct (y_drop_first y).
      - pose proof (change_drop e page ids p2 (v_dep v) P2 N2) as Y1. pose proof Y1 as (Q1 & _).
        destruct (load_state e dep (v_data v) _) as [w4|] eqn:L; [|discriminate].
        destruct (change_load e page ids _ dep (v_data v) w4 Q1 L) as (ids1 & Y2 & E).
        exists w4, ids1. split; [|split; [exact E|exact H]]. pose proof (change_trans _ _ _ _ _ _ _ _ _ _ _ _ _ _ Y1 Y2 (fun _ K => match K with end)) as Y.
        eapply change_weaken; [exact Y|cbn; tauto|cbn; tauto|tauto].
      - destruct (load_state e dep (v_data v) w2) as [w4|] eqn:L; [|discriminate].
        destruct (change_load e page ids p2 dep (v_data v) w4 P2 L) as (ids1 & Y1 & E). pose proof Y1 as (Q1 & _).
        pose proof (change_drop e page ids1 (in_world p2 w4) (v_dep v) Q1 N2) as Y2.
        exists (fst (step e w4 (ODropManager (v_dep v)))), ids1. split; [|split; [exact E|exact H]].
        pose proof (change_trans _ _ _ _ _ _ _ _ _ _ _ _ _ _ Y1 Y2 (fun _ K => match K with end)) as Y.
        eapply change_weaken; [exact Y|cbn; tauto|cbn; tauto|tauto]. }
    destruct Mid as (w5 & ids1 & Y & Ei & E). injection E as <- <-. cbn [v_data v_context v_dep]. pose proof Y as (Q5 & _ & _ & _ & _ & Y6).
    pose proof (change_drop e page ids1 (in_world p2 w5) (v_context v) Q5 N1) as Z. pose proof Z as (_ & _ & _ & _ & _ & Z6).
    destruct (Y6 Logic.I) as [_ K1]. destruct (Z6 Logic.I) as [_ K2].
    assert (K : forall j mj, j <> v_context v -> j <> v_dep v -> owns w2 j mj -> owns (fst (step e w5 (ODropManager (v_context v)))) j mj).
    { intros j mj Y1 Y2 Oj. apply (K2 j mj); [intros [F|[]]; congruence|]. apply (K1 j mj); [intros [F|[]]; congruence|]. exact Oj. }
    split; auto. split; [apply K; [lia|lia|apply B3, A4, O]|]. split; [apply K; [lia|lia|apply B4, A3, O]|]. split; [lia|].
    exists ids1, [v_dep v; v_context v], [c; dep]. split; [|split; [exact Ei|split; [|split]]].
    + assert (Nf : forall j, In j [c; dep] -> ~ In j [v_dep v; v_context v]) by (intros j [<-|[<-|[]]] [F|[F|[]]]; lia).
      pose proof (change_trans _ _ _ _ _ _ _ _ _ _ _ _ _ _ X12 (change_trans _ _ _ _ _ _ _ _ _ _ _ _ _ _ Y Z (fun _ K => match K with end)) Nf) as X.
      eapply change_weaken; [exact X|cbn; tauto|cbn; tauto|tauto].
    + repeat constructor; cbn; [intros [F|[]]; lia|easy].
    + intros j [<-|[<-|[]]]; cbn; auto.
    + cbn. apply Permutation_trans with ([c; dep] ++ [v_dep v; v_context v]); [apply (Permutation_app_comm [v_dep v; v_context v] [c; dep])|].
      cbn. do 2 apply perm_skip. apply perm_swap.
Qed.

(** *** Destroyed *)

Lemma change_unprovide e page ids p v :
  pgood e page ids p -> ~ In (v_context v) (mh p) -> ~ In (v_dep v) (mh p) ->
  change e page ids p ids (mk_prog (unprovide e v (p_app p)) (p_cache p)) [v_context v; v_dep v] [] True
  /\ mh (mk_prog (unprovide e v (p_app p)) (p_cache p)) = mh p.
Proof.
  intros P N1 N2. split; [|reflexivity]. pose proof (change_drop e page ids p (v_dep v) P N2) as Y1. pose proof Y1 as (Q1 & _).
  pose proof (change_drop e page ids _ (v_context v) Q1 N1) as Y2.
  pose proof (change_trans _ _ _ _ _ _ _ _ _ _ _ _ _ _ Y1 Y2 (fun _ K => match K with end)) as Y.
  eapply change_weaken; [exact Y|cbn; tauto|cbn; tauto|tauto].
Qed.
Lemma change_destroy e page late : forall n ids p, pgood e page ids p -> (forall h, In h (node_handles n) -> ~ In h (mh p)) ->
  change e page ids p ids (destroy e late n p) (node_handles n) [] True /\ mh (destroy e late n p) = mh p.
Proof.
  induction n as [|b ch nx IHn|f b cls ch IHc nx IHn|k d ch nx IHn|k v ch IHc nx IHn]; intros ids p P N; cbn [destroy node_handles] in *; auto.
  - split; auto. now apply change_refl.
  - assert (Nc : forall h, In h (node_handles ch) -> ~ In h (mh p)) by (intros h I; apply N, in_app_head, I).
    destruct (IHc ids p P Nc) as [A Ea]. pose proof A as (Pa & _).
    assert (Nn : forall h, In h (node_handles nx) -> ~ In h (mh (destroy e late ch p))) by (intros h I; rewrite Ea; apply N, in_app_tail, I).
    destruct (IHn ids _ Pa Nn) as [B Eb]. split; [|congruence].
    eapply change_weaken; [exact (change_trans _ _ _ _ _ _ _ _ _ _ _ _ _ _ A B (fun _ K => match K with end))|easy|easy|tauto].
  - assert (Nv : ~ In (v_context v) (mh p) /\ ~ In (v_dep v) (mh p)) by (split; apply N; cbn; auto). destruct Nv as [Nv1 Nv2].
    assert (Nc : forall h, In h (node_handles ch) -> ~ In h (mh p)) by (intros h I; apply N; right; right; apply in_app_head, I).
    assert (Mid : exists p2, (if late then mk_prog (unprovide e v (p_app (destroy e late ch p))) (p_cache (destroy e late ch p))
                              else destroy e late ch (mk_prog (unprovide e v (p_app p)) (p_cache p))) = p2
               /\ change e page ids p ids p2 (v_context v :: v_dep v :: node_handles ch) [] True /\ mh p2 = mh p).
    { eexists. split; [reflexivity|]. destruct late.
      - destruct (IHc ids p P Nc) as [A Ea]. pose proof A as (Pa & _). rewrite <- Ea in Nv1, Nv2.
        destruct (change_unprovide _ _ _ _ _ Pa Nv1 Nv2) as [B Eb]. split; [|congruence].
        eapply change_weaken; [exact (change_trans _ _ _ _ _ _ _ _ _ _ _ _ _ _ A B (fun _ K => match K with end))| |easy|tauto].
        intros h. rewrite in_app_iff. cbn. tauto.
      - destruct (change_unprovide _ _ _ _ _ P Nv1 Nv2) as [A Ea]. pose proof A as (Pa & _). rewrite <- Ea in Nc.
        destruct (IHc ids _ Pa Nc) as [B Eb]. split; [|congruence].
        eapply change_weaken; [exact (change_trans _ _ _ _ _ _ _ _ _ _ _ _ _ _ A B (fun _ K => match K with end))|cbn; tauto|easy|tauto]. }
    destruct Mid as (p2 & -> & A & Ea). pose proof A as (Pa & _).
    assert (Nn : forall h, In h (node_handles nx) -> ~ In h (mh p2)) by (intros h I; rewrite Ea; apply N; right; right; apply in_app_tail, I).
    destruct (IHn ids _ Pa Nn) as [B Eb]. split; [|congruence].
    eapply change_weaken; [exact (change_trans _ _ _ _ _ _ _ _ _ _ _ _ _ _ A B (fun _ K => match K with end))|easy|easy|tauto].
Qed.

(** *** A component *)

Lemma change_comp y e page ids p ctx body p1 cls pas :
  pgood e page ids p -> plain_body [] body -> render_component y e ctx body p = Some (p1, cls, pas) ->
  change e page ids p ids p1 [] [] (hands [] body = [])
  /\ exists mi, context_is (p_app p) (p_app p1) ctx mi
     /\ (mlive (wd p1) mi -> Forall2 (classes_in (wd p1) mi) (asks [] body) cls).
Proof.
  intros P Pb R. destruct (render_good _ _ _ _ _ _ _ _ _ _ P R) as [G1 S]. rewrite (plain_loads _ _ Pb), app_nil_r in G1.
  destruct (S (plain_unregisters _ Pb)) as (St & D & mi & Cx & F).
  destruct (gives_back_good _ _ _ _ _ _ _ _ _ _ mi P R Pb Cx) as (Ow & Bk & Fp & _ & _ & Eg). cbv zeta in *.
  split; [|exists mi; auto]. split; auto. split; auto. split; auto. split; [|split; [easy|]].
  - intros h mj _ O N. split; [now apply Ow|]. rewrite manager_handles_in in *. intros [X|(i & g & I & J)].
    + destruct (render_plain _ _ _ _ _ _ _ _ _ _ P R Pb) as (a & h' & f & mi' & m & C & -> & _ & _ & _ & _ & _ & _ & _ & Fg & _ & _ & _ & _ & Ed & _).
      destruct (leave_spec _ _ _ _ _ _ Fg) as (_ & _ & L3 & _). rewrite L3, Ed in X. destruct (context_fresh _ _ _ _ _ C) as [Fr _].
      destruct (Fr _ X) as [Y|Y]; [apply N; now left|]. apply handle_lt in O. lia.
    + apply N. right. exists i, g. split; auto. congruence.
  - intros Hd. rewrite Hd in Fp. inversion Fp; subst. split; [|auto]. intros h mj O. destruct (Bk h mj O) as [X|[(_ & _ & X)|(_ & src & [] & _)]]; auto.
Qed.

(** ** The tree *)

Lemma perm_left' (t f l1 l b : list nat) : Permutation (t ++ l1) (f ++ l) -> Permutation (t ++ l1 ++ b) (f ++ l ++ b).
Proof. intros H. rewrite !app_assoc. now apply Permutation_app_tail. Qed.

Section Living.
Variables (y : yew) (e : env) (page : dom) (ms : list nat) (sm : nat -> nat).
Let N := List.length ms.

Definition comp_ok (p : prog) (cur : option nat) (f : bool) (b : list bop) (cls : list (list str)) : Prop :=
  if f then exists mi, manager_here p sm cur mi /\ Forall2 (classes_in (wd p) mi) (asks [] b) cls
  else exists k, k < N /\ Forall2 (classes_in (wd p) (sm k)) (asks [] b) cls.
Fixpoint ngood (p : prog) (cur : option nat) (n : node) : Prop :=
  match n with
  | NEnd => True
  | NWait _ _ nx | NProvWait _ _ _ nx => ngood p cur nx
  | NComp f b cls ch nx => comp_ok p cur f b cls /\ ngood p cur ch /\ ngood p cur nx
  | NProv k v ch nx =>
      (k < N /\ owns (wd p) (v_context v) (sm k) /\ owns (wd p) (v_dep v) (sm k))
      /\ ngood p (Some k) ch /\ ngood p cur nx
  end.
Definition plain_tree : node -> Prop := all_of_node (plain_body []) (fun k => k < N) (fun _ => True) (fun _ => True).
Definition plain_view : view -> Prop := all_of_view (plain_body []) (fun k => k < N) (fun _ => True).
Definition no_data : node -> Prop := all_of_node (fun _ => True) (fun _ => True) (fun d => d = None) (fun d => d = None).
Definition keeps : node -> Prop := all_of_node (fun b => hands [] b = []) (fun _ => True) (fun _ => True) (fun _ => True).

Record lnode (ids : list str) (p : prog) : Prop := mk_lnode
  { ln_good : pgood e page ids p;
    ln_ms : forall k h, nth_error ms k = Some h -> owns (wd p) h (sm k) /\ ~ In h (mh p) }.

Lemma waiting_handles v n : node_handles (waiting v n) = node_handles n.
Proof. induction v; cbn; auto. Qed.
Lemma waiting_good p cur v n : ngood p cur n -> ngood p cur (waiting v n).
Proof. induction v; cbn; auto. Qed.
Lemma stale_handles n : node_handles (stale n) = node_handles n.
Proof. induction n; cbn; auto; congruence. Qed.

(** What holds goes on to hold. *)
Lemma here_goes ids p ids1 p1 t f G cur mi : pgood e page ids p -> change e page ids p ids1 p1 t f G ->
  (forall k, k < N -> mlive (wd p1) (sm k)) -> (forall k, cur = Some k -> k < N) -> manager_here p sm cur mi ->
  manager_here p1 sm cur mi /\ mlive (wd p1) mi.
Proof.
  intros P (P1 & S & D & _) Lv Lc H. destruct cur as [k|]; cbn [manager_here] in *; [subst mi; split; auto|].
  destruct H as (d & Ed & O). specialize (D d Ed). pose proof P1 as (_ & Ga & _).
  pose proof (gd_live _ _ _ _ _ _ Ga) as L1. unfold dflt in L1. rewrite D in L1. apply Forall_inv in L1. destruct L1 as [mj Hj].
  pose proof (passes_steps _ _ _ S) as [_ Pa]. pose proof (handle_nth _ _ _ O) as X.
  assert (O1 : owns (wd p1) d mi).
  { destruct (Pa d) as [Y|Y]; [apply nth_error_Some; congruence| |].
    - unfold owns, handle_of. now rewrite Y, X.
    - unfold handle_of in Hj. now rewrite Y in Hj. }
  split; [exists d; auto|exists d; exact O1].
Qed.
Lemma comp_goes ids p ids1 p1 t f G cur fr b cls : pgood e page ids p -> change e page ids p ids1 p1 t f G ->
  (forall k, k < N -> mlive (wd p1) (sm k)) -> (forall k, cur = Some k -> k < N) -> comp_ok p cur fr b cls -> comp_ok p1 cur fr b cls.
Proof.
  intros P C Lv Lc H. pose proof P as (_ & Ga & _). pose proof (good_cored _ _ _ _ _ _ Ga) as Co. pose proof C as (_ & S & _).
  destruct fr; cbn [comp_ok] in *.
  - destruct H as (mi & Hm & F). destruct (here_goes _ _ _ _ _ _ _ _ _ P C Lv Lc Hm) as [Hm1 L]. exists mi. split; auto.
    eapply Forall2_weaken; [|exact F]. cbn. intros x cl Ci. eapply classes_in_steps; eauto.
  - destruct H as (k & Lk & F). exists k. split; auto. eapply Forall2_weaken; [|exact F]. cbn. intros x cl Ci. eapply classes_in_steps; eauto.
Qed.
Lemma ngood_goes ids p ids1 p1 t f G : pgood e page ids p -> change e page ids p ids1 p1 t f G ->
  (forall k, k < N -> mlive (wd p1) (sm k)) ->
  forall n cur, (forall k, cur = Some k -> k < N) -> (forall h mi, In h (node_handles n) -> owns (wd p) h mi -> owns (wd p1) h mi) ->
  ngood p cur n -> ngood p1 cur n.
Proof.
  intros P C Lv. induction n as [|b ch nx IHn|fr b cls ch IHc nx IHn|k d ch nx IHn|k v ch IHc nx IHn]; intros cur Lc O H; cbn [ngood node_handles] in *; auto.
  - destruct H as (A & B & D). split; [eapply comp_goes; eauto|]. split.
    + apply IHc; auto. intros h mi I. apply O, in_app_head, I.
    + apply IHn; auto. intros h mi I. apply O, in_app_tail, I.
  - destruct H as ((A & A1 & A2) & B & D). split; [split; [auto|split; apply O; cbn; auto]|]. split.
    + apply IHc; auto; [intros k' E; now injection E as <-|]. intros h mi I. apply O. right. right. apply in_app_head, I.
    + apply IHn; auto. intros h mi I. apply O. right. right. apply in_app_tail, I.
Qed.

(** Of what is above. *)
Definition below_ok (p : prog) (ctx cur : option nat) : Prop :=
  match ctx, cur with
  | None, None => True
  | Some h, Some k => k < N /\ owns (wd p) h (sm k)
  | _, _ => False
  end.
Lemma below_lt p ctx cur : below_ok p ctx cur -> forall k, cur = Some k -> k < N.
Proof. intros B k ->. destruct ctx; cbn in B; [tauto|contradiction]. Qed.

Definition apart (p : prog) (n : node) : Prop :=
  NoDup (node_handles n) /\ forall h, In h (node_handles n) -> ~ In h ms /\ ~ In h (mh p).

Definition moved (ids : list str) (p : prog) (n : node) (cur : option nat) (ids1 : list str) (p1 : prog) (n1 : node)
    (t f : list nat) (G : Prop) : Prop :=
  Permutation (t ++ node_handles n1) (f ++ node_handles n) /\ incl t (node_handles n) /\ NoDup f
  /\ change e page ids p ids1 p1 t f (G /\ keeps n) /\ (no_data n -> ids1 = ids) /\ ngood p1 cur n1.

Definition local (G : Prop) (act : option nat -> node -> prog -> nres) : Prop :=
  forall ids ctx cur n p p1 n1,
  lnode ids p -> below_ok p ctx cur -> ngood p cur n -> plain_tree n -> apart p n ->
  act ctx n p = NNext p1 n1 -> exists ids1 t f, moved ids p n cur ids1 p1 n1 t f G.

Lemma ms_live ids p ids1 p1 t f G : lnode ids p -> change e page ids p ids1 p1 t f G -> (forall h, In h t -> ~ In h ms) ->
  forall k, k < N -> mlive (wd p1) (sm k).
Proof.
  intros L (_ & _ & _ & K & _) Nt k Lk. destruct (nth_error ms k) as [h|] eqn:E; [|apply nth_error_None in E; unfold N in Lk; lia].
  exists h. destruct (ln_ms _ _ L k h E) as [O M]. apply K; auto. intros I. apply (Nt _ I). eapply nth_error_In; eauto.
Qed.

(** Going down: the rest of the tree, with the handles [a] and [b], stays. *)
Lemma down ids p n0 cur0 ids1 p1 n1 t f G a b :
  lnode ids p -> apart p n0 -> moved ids p n0 cur0 ids1 p1 n1 t f G ->
  NoDup (a ++ node_handles n0 ++ b) -> (forall h, In h (a ++ b) -> ~ In h (mh p)) ->
  (forall k, k < N -> mlive (wd p1) (sm k))
  /\ (forall n cur, (forall k, cur = Some k -> k < N) -> incl (node_handles n) (a ++ b) -> ngood p cur n -> ngood p1 cur n)
  /\ (forall h mi, In h (a ++ b) -> owns (wd p) h mi -> owns (wd p1) h mi)
  /\ Permutation (t ++ a ++ node_handles n1 ++ b) (f ++ a ++ node_handles n0 ++ b)
  /\ incl t (a ++ node_handles n0 ++ b).
Proof.
  intros L (Nd0 & Ap) (A1 & A2 & A3 & A4 & A5 & A6) Nd Na.
  assert (Lv : forall k, k < N -> mlive (wd p1) (sm k)) by (eapply ms_live; [exact L|exact A4|]; intros h I; apply Ap, A2, I).
  assert (O : forall h mi, In h (a ++ b) -> owns (wd p) h mi -> owns (wd p1) h mi).
  { intros h mi I Oh. destruct A4 as (_ & _ & _ & K & _). apply K; auto. intros J. apply A2 in J. apply in_app_or in I. destruct I as [I|I].
    - eapply NoDup_apart; [exact Nd|exact I|]. apply in_app_head, J.
    - apply NoDup_tail in Nd. eapply NoDup_apart; [exact Nd|exact J|exact I]. }
  split; [exact Lv|]. split; [|split; [exact O|split; [now apply perm_left|intros h I; apply in_app_tail, in_app_head, A2, I]]].
  intros n cur Lc I H. eapply ngood_goes; [exact (ln_good _ _ L)|exact A4|exact Lv|exact Lc| |exact H].
  intros h mi J. apply O, I, J.
Qed.

Lemma nlift (g : node -> node) r p1 n1 : nmap g r = NNext p1 n1 -> exists n0, r = NNext p1 n0 /\ n1 = g n0.
Proof. destruct r as [p0 n0| |]; cbn; intros H; try discriminate. injection H as <- <-. eauto. Qed.

Lemma change_iff ids p ids1 p1 t f (G G' : Prop) : change e page ids p ids1 p1 t f G -> (G' -> G) -> change e page ids p ids1 p1 t f G'.
Proof. intros C I. eapply change_weaken; [exact C|easy|easy|exact I]. Qed.

Lemma local_path G act : local G act -> forall path, local G (fun ctx n p => at_path act ctx path n p).
Proof.
  intros La. induction path as [|[|] path IH]; intros ids ctx cur n p p1 n1 L Cx Hg Pl Ap H; cbn [at_path] in H.
  - eapply La; eauto.
  - destruct n as [|b ch nx|fr b cls ch nx|k d ch nx|k v ch nx]; try discriminate; apply nlift in H; destruct H as (n0 & H & ->);
      cbn [ngood node_handles] in *; destruct Ap as [Nd Ap]; unfold plain_tree in Pl; cbn [all_of_node] in Pl, Nd, Ap.
    + destruct Hg as (H1 & H2 & H3). destruct Pl as (Q1 & Q2 & Q3).
      assert (Ac : apart p ch) by (split; [eapply NoDup_head; eauto|intros h I; apply Ap, in_app_head, I]).
      destruct (IH ids ctx cur ch p p1 n0 L Cx H2 Q2 Ac H) as (ids1 & t & f & A).
      destruct (down ids p ch cur ids1 p1 n0 t f G [] (node_handles nx) L Ac A Nd) as (D1 & D2 & D3 & D4 & D5).
      { intros h I. apply Ap, in_app_tail, I. }
      exists ids1, t, f. destruct A as (A1 & A2 & A3 & A4 & A5 & A6). cbn [List.app] in *. unfold moved. cbn [node_handles ngood].
      split; [exact D4|]. split; [exact D5|]. split; [exact A3|]. split; [eapply change_iff; [exact A4|]; unfold keeps; cbn [all_of_node]; tauto|].
      split; [intros Hn; apply A5; unfold no_data in *; cbn [all_of_node] in Hn; tauto|].
      split; [eapply comp_goes; [exact (ln_good _ _ L)|exact A4|exact D1|eapply below_lt; eauto|exact H1]|]. split; [exact A6|].
      apply D2; [eapply below_lt; eauto|apply incl_refl|exact H3].
    + destruct Hg as ((H1 & H1' & H1'') & H2 & H3). destruct Pl as ((Q1 & _) & Q2 & Q3).
      assert (Nd' : NoDup ([v_context v; v_dep v] ++ node_handles ch ++ node_handles nx)) by exact Nd.
      assert (Ac : apart p ch) by (split; [eapply NoDup_head, NoDup_tail; eauto|intros h I; apply Ap; right; right; apply in_app_head, I]).
      destruct (IH ids (Some (v_context v)) (Some k) ch p p1 n0 L (conj H1 H1') H2 Q2 Ac H) as (ids1 & t & f & A).
      destruct (down ids p ch (Some k) ids1 p1 n0 t f G [v_context v; v_dep v] (node_handles nx) L Ac A Nd') as (D1 & D2 & D3 & D4 & D5).
      { intros h I. apply Ap. destruct I as [<-|[<-|I]]; cbn; auto. right. right. apply in_app_tail, I. }
      exists ids1, t, f. destruct A as (A1 & A2 & A3 & A4 & A5 & A6). cbn [List.app] in *. unfold moved. cbn [node_handles ngood].
      split; [exact D4|]. split; [exact D5|]. split; [exact A3|]. split; [eapply change_iff; [exact A4|]; unfold keeps; cbn [all_of_node]; tauto|].
      split; [intros Hn; apply A5; unfold no_data in *; cbn [all_of_node] in Hn; tauto|].
      split; [split; [exact H1|split; apply D3; cbn; auto]|]. split; [exact A6|].
      apply D2; [eapply below_lt; eauto|intros h I; right; right; exact I|exact H3].
  - destruct n as [|b ch nx|fr b cls ch nx|k d ch nx|k v ch nx]; try discriminate; apply nlift in H; destruct H as (n0 & H & ->);
      cbn [ngood node_handles] in *; destruct Ap as [Nd Ap]; unfold plain_tree in Pl; cbn [all_of_node] in Pl, Nd, Ap.
    + destruct Pl as (Q1 & Q2 & Q3). destruct (IH ids ctx cur nx p p1 n0 L Cx Hg Q3 (conj Nd Ap) H) as (ids1 & t & f & A1 & A2 & A3 & A4 & A5 & A6).
      exists ids1, t, f. split; [exact A1|]. split; [exact A2|]. split; [exact A3|]. split; [eapply change_iff; [exact A4|]; unfold keeps; cbn [all_of_node]; tauto|].
      split; [intros Hn; apply A5; unfold no_data in *; cbn [all_of_node] in Hn; tauto|exact A6].
    + destruct Hg as (H1 & H2 & H3). destruct Pl as (Q1 & Q2 & Q3).
      assert (Nd' : NoDup (node_handles ch ++ node_handles nx ++ [])) by now rewrite app_nil_r.
      assert (Ac : apart p nx) by (split; [eapply NoDup_tail; eauto|intros h I; apply Ap, in_app_tail, I]).
      destruct (IH ids ctx cur nx p p1 n0 L Cx H3 Q3 Ac H) as (ids1 & t & f & A).
      destruct (down ids p nx cur ids1 p1 n0 t f G (node_handles ch) [] L Ac A Nd') as (D1 & D2 & D3 & D4 & D5).
      { intros h I. rewrite app_nil_r in I. apply Ap, in_app_head, I. }
      exists ids1, t, f. destruct A as (A1 & A2 & A3 & A4 & A5 & A6). rewrite !app_nil_r in *. unfold moved. cbn [node_handles ngood].
      split; [exact D4|]. split; [exact D5|]. split; [exact A3|]. split; [eapply change_iff; [exact A4|]; unfold keeps; cbn [all_of_node]; tauto|].
      split; [intros Hn; apply A5; unfold no_data in *; cbn [all_of_node] in Hn; tauto|].
      split; [eapply comp_goes; [exact (ln_good _ _ L)|exact A4|exact D1|eapply below_lt; eauto|exact H1]|]. split; [|exact A6].
      apply D2; [eapply below_lt; eauto|apply incl_refl|exact H2].
    + destruct Pl as (Q1 & Q2 & Q3). destruct (IH ids ctx cur nx p p1 n0 L Cx Hg Q3 (conj Nd Ap) H) as (ids1 & t & f & A1 & A2 & A3 & A4 & A5 & A6).
      exists ids1, t, f. split; [exact A1|]. split; [exact A2|]. split; [exact A3|]. split; [eapply change_iff; [exact A4|]; unfold keeps; cbn [all_of_node]; tauto|].
      split; [intros Hn; apply A5; unfold no_data in *; cbn [all_of_node] in Hn; tauto|exact A6].
    + destruct Hg as ((H1 & H1' & H1'') & H2 & H3). destruct Pl as ((Q1 & _) & Q2 & Q3).
      assert (Nd' : NoDup ((v_context v :: v_dep v :: node_handles ch) ++ node_handles nx ++ [])) by (rewrite app_nil_r; exact Nd).
      assert (Ac : apart p nx).
      { split; [rewrite app_nil_r in Nd'; eapply NoDup_tail; exact Nd'|intros h I; apply Ap; right; right; apply in_app_tail, I]. }
      destruct (IH ids ctx cur nx p p1 n0 L Cx H3 Q3 Ac H) as (ids1 & t & f & A).
      destruct (down ids p nx cur ids1 p1 n0 t f G (v_context v :: v_dep v :: node_handles ch) [] L Ac A Nd') as (D1 & D2 & D3 & D4 & D5).
      { intros h I. rewrite app_nil_r in I. apply Ap. destruct I as [<-|[<-|I]]; cbn; auto. right. right. apply in_app_head, I. }
      exists ids1, t, f. destruct A as (A1 & A2 & A3 & A4 & A5 & A6). rewrite !app_nil_r in *. unfold moved. cbn [node_handles ngood].
      split; [exact D4|]. split; [exact D5|]. split; [exact A3|]. split; [eapply change_iff; [exact A4|]; unfold keeps; cbn [all_of_node]; tauto|].
      split; [intros Hn; apply A5; unfold no_data in *; cbn [all_of_node] in Hn; tauto|].
      split; [split; [exact H1|split; apply D3; cbn; auto]|]. split; [|exact A6].
      apply D2; [intros k' E; now injection E as <-|intros h I; right; right; exact I|exact H2].
Qed.

(** ** The events *)

Lemma rendered_step ids ctx cur b p p1 cls pas :
  lnode ids p -> below_ok p ctx cur -> plain_body [] b -> render_component y e ctx b p = Some (p1, cls, pas) ->
  change e page ids p ids p1 [] [] (hands [] b = []) /\ comp_ok p1 cur true b cls
  /\ (forall k, k < N -> mlive (wd p1) (sm k)).
Proof.
  intros L Cx Pb R. destruct (change_comp _ _ _ _ _ _ _ _ _ _ (ln_good _ _ L) Pb R) as (C & mi & Hc & F).
  assert (Lv : forall k, k < N -> mlive (wd p1) (sm k)) by (eapply ms_live; [exact L|exact C|easy]).
  split; auto. split; [|exact Lv]. cbn [comp_ok]. exists mi. destruct ctx as [h|], cur as [k|]; cbn [below_ok context_is] in *; try contradiction.
  - destruct Cx as [Lk O]. unfold owns in O. rewrite O in Hc. injection Hc as <-. split; [reflexivity|auto].
  - destruct Hc as (d & Ed & Od). split; [exists d; auto|]. apply F. exists d. exact Od.
Qed.

Lemma no_change_moved ids p n cur n1 G : lnode ids p -> node_handles n1 = node_handles n -> ngood p cur n1 ->
  moved ids p n cur ids p n1 [] [] G.
Proof.
  intros L E H. split; [cbn; rewrite E; apply Permutation_refl|]. split; [easy|]. split; [constructor|].
  split; [apply change_refl, (ln_good _ _ L)|]. split; auto.
Qed.

Lemma local_render : local True (render_at y e ms).
Proof.
  intros ids ctx cur n p p1 n1 L Cx Hg Pl Ap H. pose proof (ln_good _ _ L) as P.
  destruct n as [|b ch nx|fr b cls0 ch nx|k d ch nx|k v ch nx]; cbn [render_at] in H; try discriminate;
    unfold plain_tree in Pl; cbn [all_of_node ngood] in Pl, Hg.
  - unfold rendered in H. destruct (render_component y e ctx b p) as [[[p2 cls] pas]|] eqn:R; [|discriminate]. injection H as <- <-.
    destruct (rendered_step _ _ _ _ _ _ _ _ L Cx (proj1 Pl) R) as (C & Ok & Lv). exists ids, [], []. unfold moved. cbn [node_handles List.app].
    rewrite waiting_handles. split; [apply Permutation_refl|]. split; [easy|]. split; [constructor|].
    split; [eapply change_iff; [exact C|]; unfold keeps; cbn [all_of_node]; tauto|]. split; [auto|]. cbn [ngood].
    split; auto. split; [now apply waiting_good|]. destruct C as (C1 & C2 & C3 & C4 & C5).
    eapply ngood_goes; [exact P|exact (conj C1 (conj C2 (conj C3 (conj C4 C5))))|exact Lv|eapply below_lt; eauto| |exact Hg].
    intros h mi I O. apply C4; [easy|exact O|apply Ap, I].
  - unfold rendered in H. destruct (render_component y e ctx b p) as [[[p2 cls] pas]|] eqn:R; [|discriminate]. injection H as <- <-.
    destruct (rendered_step _ _ _ _ _ _ _ _ L Cx (proj1 Pl) R) as (C & Ok & Lv). exists ids, [], []. unfold moved. cbn [node_handles List.app].
    split; [apply Permutation_refl|]. split; [easy|]. split; [constructor|].
    split; [eapply change_iff; [exact C|]; unfold keeps; cbn [all_of_node]; tauto|]. split; [auto|]. cbn [ngood].
    destruct Hg as (_ & H2 & H3). split; auto. pose proof C as (_ & _ & _ & C4 & _).
    split; (eapply ngood_goes; [exact P|exact C|exact Lv|eapply below_lt; eauto| |]; [|eassumption];
      intros h mi I O; apply C4; [easy|exact O|]; apply Ap; cbn [node_handles]; [apply in_app_head, I||apply in_app_tail, I]).
  - destruct (nth_error ms k) as [h|] eqn:Em; [|discriminate]. destruct (provide e h d (p_app p)) as [[a1 v]|] eqn:Pr; [|discriminate]. injection H as <- <-.
    destruct (change_provide _ _ _ _ _ _ _ _ P Pr) as (ids1 & C & Ei & Ed & Nv & Ov). destruct (ln_ms _ _ L k h Em) as [O _]. destruct (Ov _ O) as [O1 O2].
    assert (Lv : forall k, k < N -> mlive (wd (mk_prog a1 (p_cache p))) (sm k)) by (eapply ms_live; [exact L|exact C|easy]).
    exists ids1, [], [v_context v; v_dep v]. unfold moved. cbn [node_handles List.app]. rewrite waiting_handles. cbn [node_handles List.app].
    split; [apply Permutation_refl|]. split; [easy|]. split; [repeat constructor; cbn; [intros [F|[]]; congruence|easy]|].
    split; [eapply change_iff; [exact C|tauto]|]. split; [intros Hn; apply Ei; unfold no_data in Hn; cbn [all_of_node] in Hn; tauto|]. cbn [ngood].
    split; [split; [apply Pl|split; assumption]|]. split; [now apply waiting_good|]. pose proof C as (_ & _ & _ & C4 & _).
    eapply ngood_goes; [exact P|exact C|exact Lv|eapply below_lt; eauto| |exact Hg].
    intros j mi I Oj. apply C4; [easy|exact Oj|apply Ap, I].
Qed.

Lemma local_update b' : plain_body [] b' -> local (hands [] b' = []) (update_at y e b').
Proof.
  intros Pb ids ctx cur n p p1 n1 L Cx Hg Pl Ap H. pose proof (ln_good _ _ L) as P.
  destruct n as [|b ch nx|fr b cls0 ch nx|k d ch nx|k v ch nx]; cbn [update_at] in H; try discriminate;
    unfold plain_tree in Pl; cbn [all_of_node ngood] in Pl, Hg.
  - injection H as <- <-. exists ids, [], []. now apply no_change_moved.
  - unfold rendered in H. destruct (render_component y e ctx b' p) as [[[p2 cls] pas]|] eqn:R; [|discriminate]. injection H as <- <-.
    destruct (rendered_step _ _ _ _ _ _ _ _ L Cx Pb R) as (C & Ok & Lv). exists ids, [], []. unfold moved. cbn [node_handles List.app].
    split; [apply Permutation_refl|]. split; [easy|]. split; [constructor|].
    split; [eapply change_iff; [exact C|tauto]|]. split; [auto|]. cbn [ngood].
    destruct Hg as (_ & H2 & H3). split; auto. pose proof C as (_ & _ & _ & C4 & _).
    split; (eapply ngood_goes; [exact P|exact C|exact Lv|eapply below_lt; eauto| |]; [|eassumption];
      intros h mi I O; apply C4; [easy|exact O|]; apply Ap; cbn [node_handles]; [apply in_app_head, I||apply in_app_tail, I]).
Qed.

Lemma local_mount v : local True (mount_at v).
Proof.
  intros ids ctx cur n p p1 n1 L Cx Hg Pl Ap H. injection H as <- <-. exists ids, [], []. apply no_change_moved; auto.
  - apply waiting_handles.
  - now apply waiting_good.
Qed.

Lemma unmounted ids p n nx a cur late :
  lnode ids p -> apart p n -> (forall k, cur = Some k -> k < N) -> node_handles n = node_handles a ++ node_handles nx ->
  ngood p cur nx -> moved ids p n cur ids (destroy e late a p) nx (node_handles a) [] True.
Proof.
  intros L [Nd Ap] Lc E Hg. pose proof (ln_good _ _ L) as P. rewrite E in Nd, Ap.
  destruct (change_destroy e page late a ids p P) as [C Em]; [intros h I; apply Ap, in_app_head, I|].
  assert (Lv : forall k, k < N -> mlive (wd (destroy e late a p)) (sm k)) by (eapply ms_live; [exact L|exact C|]; intros h I; apply Ap, in_app_head, I).
  unfold moved. rewrite E. cbn [List.app]. split; [apply Permutation_refl|]. split; [intros h I; apply in_app_head, I|]. split; [constructor|].
  split; [eapply change_iff; [exact C|tauto]|]. split; [auto|]. pose proof C as (_ & _ & _ & C4 & _).
  eapply ngood_goes; [exact P|exact C|exact Lv|exact Lc| |exact Hg]. intros h mi I O. apply C4; [|exact O|apply Ap, in_app_tail, I].
  intros J. eapply NoDup_apart; eauto.
Qed.
Lemma local_unmount late : local True (unmount_at e late).
Proof.
  intros ids ctx cur n p p1 n1 L Cx Hg Pl Ap H. pose proof (below_lt _ _ _ Cx) as Lc.
  destruct n as [|b ch nx|fr b cls0 ch nx|k d ch nx|k v ch nx]; cbn [unmount_at] in H; try discriminate; cbn [ngood] in Hg.
  - injection H as <- <-. exists ids, [], []. now apply no_change_moved.
  - injection H as <- <-. exists ids, (node_handles ch), []. now apply unmounted.
  - injection H as <- <-. exists ids, [], []. now apply no_change_moved.
  - injection H as E <-. exists ids, (node_handles (NProv k v ch NEnd)), []. rewrite <- E.
    apply (unmounted ids p (NProv k v ch nx) nx (NProv k v ch NEnd) cur late); auto; [cbn [node_handles]; now rewrite app_nil_r|tauto].
Qed.

(** A manager is exchanged. *)
Lemma stale_good p k k' : k < N -> forall n, ngood p (Some k) n -> ngood p (Some k') (stale n).
Proof.
  intros Lk. induction n as [|b ch nx IHn|fr b cls ch IHc nx IHn|k0 d ch nx IHn|k0 v ch IHc nx IHn]; cbn [ngood stale]; auto.
  - intros (A & B & C). split; [|auto]. cbn [comp_ok] in *. destruct fr; [|exact A]. destruct A as (mi & -> & F). exists k. auto.
  - intros (A & B & C). auto.
Qed.
Lemma same_good p k k' : sm k = sm k' -> forall n, ngood p (Some k) n -> ngood p (Some k') n.
Proof.
  intros E. induction n as [|b ch nx IHn|fr b cls ch IHc nx IHn|k0 d ch nx IHn|k0 v ch IHc nx IHn]; cbn [ngood]; auto.
  - intros (A & B & C). split; [|auto]. destruct fr; [|exact A]. cbn [comp_ok manager_here] in *. now rewrite <- E.
  - intros (A & B & C). auto.
Qed.
Lemma local_manager k' : k' < N -> local True (manager_at y e ms k').
Proof.
  intros Lk' ids ctx cur n p p1 n1 L Cx Hg Pl Ap H. pose proof (ln_good _ _ L) as P. pose proof (below_lt _ _ _ Cx) as Lc.
  unfold manager_at in H. destruct (nth_error ms k') as [h|] eqn:Em; [|discriminate]. destruct (ln_ms _ _ L k' h Em) as [O No].
  destruct n as [|b ch nx|fr b cls0 ch nx|k d ch nx|k v ch nx]; try discriminate; cbn [ngood] in Hg.
  - injection H as <- <-. exists ids, [], []. now apply no_change_moved.
  - destruct (provide_again y e v h (p_app p)) as [[a1 v1]|] eqn:Pr; [|discriminate]. injection H as <- <-.
    destruct Hg as ((Lk & O1 & O2) & H2 & H3). destruct Ap as [Nd Ap]. cbn [node_handles] in Nd, Ap.
    destruct (Ap (v_context v)) as [M1 M1']; [cbn; auto|]. destruct (Ap (v_dep v)) as [M2 M2']; [cbn; auto|].
    assert (Nc : v_context v <> v_dep v) by (intros E; inversion Nd as [|? ? X _]; subst; apply X; rewrite E; now left).
    assert (Nh1 : h <> v_context v) by (intros ->; apply M1; eapply nth_error_In; eauto).
    assert (Nh2 : h <> v_dep v) by (intros ->; apply M2; eapply nth_error_In; eauto).
    destruct (change_again _ _ _ _ _ _ _ _ _ _ _ P O1 O2 O M1' M2' Nc Nh1 Nh2 Pr) as (Ed & V1 & V2 & Nv & ids1 & t & f & C & Ei & Nf & It & Pe).
    assert (Lv : forall k, k < N -> mlive (wd (mk_prog a1 (p_cache p))) (sm k)).
    { eapply ms_live; [exact L|exact C|]. intros j I. apply It in I. destruct I as [<-|[<-|[]]]; assumption. }
    exists ids1, t, f.
    assert (Eh : node_handles (if same_manager (wd p) (v_context v) h then ch else stale ch) = node_handles ch).
    { destruct (same_manager _ _ _); [reflexivity|apply stale_handles]. }
    unfold moved. cbn [node_handles]. rewrite Eh.
    split; [exact (perm_left' t f [v_context v1; v_dep v1] [v_context v; v_dep v] (node_handles ch ++ node_handles nx) Pe)|].
    split; [intros j I; apply It in I; destruct I as [<-|[<-|[]]]; cbn; auto|]. split; [exact Nf|].
    split; [eapply change_iff; [exact C|tauto]|]. split; [intros Hn; apply Ei; unfold no_data in Hn; cbn [all_of_node] in Hn; tauto|].
    assert (Kp : forall j mi, In j (node_handles ch ++ node_handles nx) -> owns (wd p) j mi -> owns (wd (mk_prog a1 (p_cache p))) j mi).
    { intros j mi I Oj. destruct C as (_ & _ & _ & C4 & _). apply C4; [|exact Oj|apply Ap; right; right; exact I].
      intros J. apply It in J. apply (NoDup_apart [v_context v; v_dep v] (node_handles ch ++ node_handles nx) j Nd J I). }
    cbn [ngood]. split; [split; [exact Lk'|split; assumption]|]. split.
    + assert (H2' : ngood p (Some k') (if same_manager (wd p) (v_context v) h then ch else stale ch)).
      { destruct (same_manager (wd p) (v_context v) h) eqn:Sm; [|now apply (stale_good p k)]. apply (same_good p k k'); [|exact H2].
        unfold same_manager in Sm. unfold owns in O1, O. rewrite O1, O in Sm. now apply Nat.eqb_eq. }
      eapply ngood_goes; [exact P|exact C|exact Lv|intros j E; now injection E as <-| |exact H2'].
      intros j mi I. apply Kp, in_app_head. rewrite <- Eh. exact I.
    + eapply ngood_goes; [exact P|exact C|exact Lv|exact Lc| |exact H3]. intros j mi I. apply Kp, in_app_tail, I.
Qed.

(** ** All of it *)

Record lstate (ids : list str) (p : prog) (n : node) : Prop := mk_lstate
  { ls_node : lnode ids p; ls_good : ngood p None n; ls_plain : plain_tree n; ls_apart : apart p n }.

Section Shape.
Variables (B : list bop -> Prop) (K : nat -> Prop) (D M : option (list record) -> Prop).
Hypothesis DM : forall d, D d -> M d.
Let V := all_of_view B K D.
Let T := all_of_node B K D M.
Lemma waiting_all v n : V v -> T n -> T (waiting v n).
Proof. induction v; cbn; auto; intros (A1 & A2 & A3) Hn; auto. Qed.
Lemma stale_all n : T n -> T (stale n).
Proof. induction n; cbn; auto; intros (A1 & A2 & A3); auto. Qed.
Definition shape (act : option nat -> node -> prog -> nres) : Prop :=
  forall ctx n p p1 n1, T n -> act ctx n p = NNext p1 n1 -> T n1.
Lemma shape_path act : shape act -> forall path, shape (fun ctx n p => at_path act ctx path n p).
Proof.
  intros S. induction path as [|[|] path IH]; intros ctx n p p1 n1 Hn H; cbn [at_path] in H.
  - eapply S; eauto.
  - destruct n; try discriminate; apply nlift in H; destruct H as (n0 & H & ->); cbn in Hn |- *; destruct Hn as (A1 & A2 & A3);
      split; auto; split; auto; refine (IH _ _ _ _ _ _ H); assumption.
  - destruct n; try discriminate; apply nlift in H; destruct H as (n0 & H & ->); cbn in Hn |- *; destruct Hn as (A1 & A2 & A3);
      split; auto; split; auto; refine (IH _ _ _ _ _ _ H); assumption.
Qed.
Lemma provide_data h d a a1 v : provide e h d a = Some (a1, v) -> v_data v = d.
Proof.
  unfold provide. destruct (clone_handle e h (a_world a)) as [[w1 c]|]; [|discriminate]. destruct (clone_handle e h w1) as [[w2 c2]|]; [|discriminate].
  destruct (load_state _ _ _ _); [|discriminate]. intros H. now injection H as <- <-.
Qed.
Lemma again_data v h a a1 v1 : provide_again y e v h a = Some (a1, v1) -> v_data v1 = v_data v.
Proof.
  unfold provide_again. destruct (clone_handle e h (a_world a)) as [[w1 c]|]; [|discriminate].
  destruct (same_manager _ _ _); [intros H; now injection H as <- <-|]. destruct (clone_handle e h w1) as [[w2 c2]|]; [|discriminate].
  cbv zeta. destruct (load_state _ _ _ _); [|discriminate]. intros H. now injection H as <- <-.
Qed.
Lemma shape_step ev n p p1 n1 : T n -> all_of_event B K D ev -> nstep y e ms ev n p = NNext p1 n1 -> T n1.
Proof.
  assert (Rd : forall ctx b ch nx p p1 n1, B b -> T ch -> T nx -> rendered y e ctx b ch nx p = NNext p1 n1 -> T n1).
  { clear. intros ctx b ch nx p p1 n1 Hb Hc Hx H. unfold rendered in H. destruct (render_component _ _ _ _ _) as [[[p2 cls] pas]|]; [|discriminate].
    injection H as <- <-. cbn. auto. }
  intros Hn He H. destruct ev as [path|path b|path v|path late|path k|o]; cbn [nstep all_of_event] in *.
  - refine (shape_path (render_at y e ms) _ path None n p p1 n1 Hn H). clear n p p1 n1 Hn H. intros ctx n p p1 n1 Hn H. destruct n; cbn [render_at] in H; try discriminate; destruct Hn as (A1 & A2 & A3).
    + eapply Rd; [..|exact H]; auto. apply waiting_all; [exact A2|exact I].
    + eapply Rd; [..|exact H]; auto.
    + destruct (nth_error ms k); [|discriminate]. destruct (provide _ _ _ _) as [[a v]|] eqn:Pr; [|discriminate]. injection H as <- <-.
      cbn. rewrite (provide_data _ _ _ _ _ Pr). destruct A1 as [A0 A1]. split; [split; [exact A0|now apply DM]|]. split; auto. apply waiting_all; [exact A2|exact I].
  - refine (shape_path (update_at y e b) _ path None n p p1 n1 Hn H). clear n p p1 n1 Hn H. intros ctx n p p1 n1 Hn H. destruct n; cbn [update_at] in H; try discriminate; destruct Hn as (A1 & A2 & A3).
    + injection H as <- <-. cbn. auto.
    + eapply Rd; [..|exact H]; auto.
  - refine (shape_path (mount_at v) _ path None n p p1 n1 Hn H). clear n p p1 n1 Hn H. intros ctx n p p1 n1 Hn H. injection H as <- <-. now apply waiting_all.
  - refine (shape_path (unmount_at e late) _ path None n p p1 n1 Hn H). clear n p p1 n1 Hn H. intros ctx n p p1 n1 Hn H. destruct n; cbn [unmount_at] in H; try discriminate; destruct Hn as (A1 & A2 & A3);
      injection H as _ <-; exact A3.
  - refine (shape_path (manager_at y e ms k) _ path None n p p1 n1 Hn H). clear n p p1 n1 Hn H. intros ctx n p p1 n1 Hn H. unfold manager_at in H. destruct (nth_error ms k); [|discriminate].
    destruct n; try discriminate; destruct Hn as (A1 & A2 & A3).
    + injection H as <- <-. cbn. tauto.
    + destruct (provide_again _ _ _ _ _) as [[a v1]|] eqn:Pr; [|discriminate]. injection H as <- <-. cbn. rewrite (again_data _ _ _ _ _ Pr).
      split; [tauto|]. split; auto. destruct (same_manager _ _ _); [exact A2|now apply stale_all].
  - destruct (forallb _ _); [|discriminate]. destruct (pstep y e p o); [|discriminate]. now injection H as <- <-.
Qed.
End Shape.

Lemma ngood_owned p : forall n cur h, ngood p cur n -> In h (node_handles n) -> exists mi, owns (wd p) h mi.
Proof.
  induction n as [|b ch nx IHn|fr b cls ch IHc nx IHn|k d ch nx IHn|k v ch IHc nx IHn]; intros cur h Hg I; cbn [ngood node_handles] in *; [contradiction|eauto| |eauto|].
  - destruct Hg as (_ & X & Y). apply in_app_or in I. destruct I; eauto.
  - destruct Hg as ((_ & U & W) & X & Y). destruct I as [<-|[<-|I]]; eauto. apply in_app_or in I. destruct I; eauto.
Qed.


Lemma lstate_move ids p n ids1 p1 n1 t f G : lstate ids p n -> moved ids p n None ids1 p1 n1 t f G -> plain_tree n1 ->
  lstate ids1 p1 n1.
Proof.
  intros [L Hg Pl [Nd Ap]] (A1 & A2 & A3 & A4 & A5 & A6) Pl1. pose proof A4 as (B1 & B2 & B3 & B4 & B5 & _).
  assert (Lh : forall h, In h (node_handles n) -> h < List.length (w_mhandles (wd p))).
  { intros h I. destruct (ngood_owned _ _ _ _ Hg I) as [mi X]. now apply handle_lt in X. }
  assert (Nd1 : NoDup (t ++ node_handles n1)).
  { eapply Permutation_NoDup; [apply Permutation_sym; exact A1|]. apply NoDup_both; auto. intros h I J. destruct (B5 h I) as [X _]. apply Lh in J. lia. }
  split; auto.
  - split; [exact B1|]. intros k h E. destruct (ln_ms _ _ L k h E) as [O M]. apply B4; auto. intros I. apply A2 in I. apply (proj1 (Ap h I)). eapply nth_error_In; eauto.
  - split; [now apply NoDup_tail in Nd1|]. intros h I.
    assert (J : In h (f ++ node_handles n)) by (eapply Permutation_in; [exact A1|apply in_app_tail, I]). apply in_app_or in J. destruct J as [J|J].
    + destruct (B5 h J) as (X & Y & _). split; [|exact Y]. intros M. apply In_nth_error in M. destruct M as [k M]. destruct (ln_ms _ _ L k h M) as [O _]. apply handle_lt in O. lia.
    + destruct (Ap h J) as [X Y]. split; auto.
      pose proof (ngood_owned _ _ _ _ Hg J) as X1.
      destruct X1 as [mi O]. apply (B4 h mi); auto. intros K. eapply NoDup_apart; eauto.
Qed.

Lemma lstate_step ids p n ev p1 n1 : lstate ids p n -> proper ms ev -> nstep y e ms ev n p = NNext p1 n1 ->
  exists ids1 t f, lstate ids1 p1 n1 /\ change e page ids p ids1 p1 t f (is_other ev = false /\ hands_nothing ev /\ keeps n)
    /\ (is_other ev = false -> Permutation (t ++ node_handles n1) (f ++ node_handles n) /\ incl t (node_handles n))
    /\ (no_data n -> (forall o, ev = EDo o -> ploaded [o] = []) -> ids1 = ids).
Proof.
  intros S [Pe Po] H. pose proof S as [L Hg Pl Ap].
  assert (Pl1 : plain_tree n1) by (eapply shape_step; [|exact Pl|exact Pe|exact H]; auto).
  assert (Fin : forall G, (exists ids1 t f, moved ids p n None ids1 p1 n1 t f G) -> (hands_nothing ev -> G) ->
     exists ids1 t f, lstate ids1 p1 n1 /\ change e page ids p ids1 p1 t f (is_other ev = false /\ hands_nothing ev /\ keeps n)
    /\ (is_other ev = false -> Permutation (t ++ node_handles n1) (f ++ node_handles n) /\ incl t (node_handles n))
    /\ (no_data n -> (forall o, ev = EDo o -> ploaded [o] = []) -> ids1 = ids)).
  { intros G (ids1 & t & f & M) Hh. exists ids1, t, f. pose proof (lstate_move _ _ _ _ _ _ _ _ _ S M Pl1) as S1. split; [exact S1|].
    destruct M as (A1 & A2 & A3 & A4 & A5 & A6). split; [eapply change_iff; [exact A4|tauto]|]. split; [|auto]. intros _. split; [exact A1|]. exact A2. }
  destruct ev as [path|path b|path v|path late|path k|o]; cbn [nstep] in H.
  - apply (Fin True); auto. exact (local_path _ _ local_render path ids None None n p p1 n1 L I Hg Pl Ap H).
  - apply (Fin (hands [] b = [])); auto. exact (local_path _ _ (local_update b Pe) path ids None None n p p1 n1 L I Hg Pl Ap H).
  - apply (Fin True); auto. exact (local_path _ _ (local_mount v) path ids None None n p p1 n1 L I Hg Pl Ap H).
  - apply (Fin True); auto. exact (local_path _ _ (local_unmount late) path ids None None n p p1 n1 L I Hg Pl Ap H).
  - apply (Fin True); auto. exact (local_path _ _ (local_manager k Pe) path ids None None n p p1 n1 L I Hg Pl Ap H).
  - destruct (forallb _ _) eqn:Fb; [|discriminate]. destruct (pstep y e p o) as [p2|] eqn:Ps; [|discriminate]. injection H as <- <-.
    cbn [other_code] in Po. destruct Po as [Un Nt]. pose proof (ln_good _ _ L) as P.
    pose proof (pgood_pstep _ _ _ _ _ _ _ P Ps) as P1. destruct (steps_pstep _ _ _ _ _ _ _ P Ps Un) as [St Dd].
    assert (Ft : forall h, In h (pop_takes o) -> ~ In h (node_handles n)).
    { intros h I J. rewrite forallb_forall in Fb. specialize (Fb h I). apply negb_true_iff in Fb. assert (X : existsb (Nat.eqb h) (node_handles n) = true); [|congruence].
      apply existsb_exists. exists h. split; auto. apply Nat.eqb_refl. }
    assert (C : change e page ids p (ids ++ ploaded [o]) p2 (pop_takes o) [] False).
    { split; auto. split; auto. split; auto. split; [|split; [intros h []|intros []]]. intros h mi N1 O M. exact (kept_pstep y e page ids p o p2 h mi P O M Ps N1). }
    exists (ids ++ ploaded [o]), (pop_takes o), [].
    assert (S1 : lstate (ids ++ ploaded [o]) p2 n).
    { assert (L1 : lnode (ids ++ ploaded [o]) p2).
      { split; [exact P1|]. intros k h E. destruct (ln_ms _ _ L k h E) as [O M]. apply (kept_pstep y e page ids p o p2 h (sm k) P O M Ps). intros I. apply (Nt _ I). eapply nth_error_In; eauto. }
      destruct Ap as [Nd Ap]. split; auto.
      - eapply ngood_goes; [exact P|exact C| |easy| |exact Hg].
        + intros k Lk. destruct (nth_error ms k) as [h|] eqn:E; [|apply nth_error_None in E; unfold N in Lk; lia]. exists h. now apply (ln_ms _ _ L1).
        + intros h mi I O. eapply kept_pstep; [exact P|exact O|apply Ap, I|exact Ps|]. intros J. exact (Ft h J I).
      - split; auto. intros h I. split; [apply Ap, I|].
        pose proof (ngood_owned _ _ _ _ Hg I) as X1.
        destruct X1 as [mi O]. eapply kept_pstep; [exact P|exact O|apply Ap, I|exact Ps|]. intros J. exact (Ft h J I). }
    split; [exact S1|]. split; [|split; [discriminate|]].
    + eapply change_iff; [exact C|]. intros [X _]. discriminate.
    + intros _ X. rewrite (X o eq_refl). apply app_nil_r.
Qed.

(** ** Runs *)

Lemma lstate_run : forall evs ids p n p1 n1, lstate ids p n -> Forall (proper ms) evs -> nrun y e ms evs n p = NNext p1 n1 ->
  exists ids1, lstate ids1 p1 n1 /\ steps e (wd p) (wd p1)
    /\ (forall d, a_default (p_app p) = Some d -> a_default (p_app p1) = Some d)
    /\ (no_data n -> Forall loads_nothing evs -> no_data n1 /\ ids1 = ids).
Proof.
  induction evs as [|ev evs IH]; intros ids p n p1 n1 S F H; cbn [nrun] in H.
  - injection H as <- <-. exists ids. split; auto. split; [apply steps_refl|]. auto.
  - inversion F as [|? ? Pe F']; subst. destruct (nstep y e ms ev n p) as [p2 n2| |] eqn:E; [|discriminate|].
    + destruct (lstate_step _ _ _ _ _ _ S Pe E) as (ids2 & t & f & S2 & C & _ & Ei).
      destruct (IH _ _ _ _ _ S2 F' H) as (ids1 & S1 & St & D & Ed). exists ids1. split; auto. destruct C as (_ & Sc & Dc & _).
      split; [eapply steps_trans; eauto|]. split; auto. intros Nd Fl. inversion Fl as [|? ? [L1 L2] Fl']; subst.
      destruct Ed as [X Y]; auto; [eapply shape_step; [|exact Nd|exact L1|exact E]; auto|]. split; auto. rewrite Y. auto.
    + destruct (IH _ _ _ _ _ S F' H) as (ids1 & S1 & St & D & Ed). exists ids1. split; auto. split; auto. split; auto.
      intros Nd Fl. inversion Fl; subst. auto.
Qed.

Lemma back_run : forall evs ids p n p1 n1, lstate ids p n -> Forall (proper ms) evs -> nrun y e ms evs n p = NNext p1 n1 ->
  Forall (fun ev => is_other ev = false /\ hands_nothing ev) evs -> keeps n ->
  (forall h mi, owns (wd p1) h mi -> owns (wd p) h mi /\ ~ In h (node_handles n) \/ In h (node_handles n1) \/ a_default (p_app p1) = Some h)
  /\ (forall h mi, owns (wd p) h mi -> ~ In h (node_handles n) -> owns (wd p1) h mi).
Proof.
  assert (Gen : forall evs ids p n p1 n1, lstate ids p n -> Forall (proper ms) evs -> nrun y e ms evs n p = NNext p1 n1 ->
    Forall (fun ev => is_other ev = false /\ hands_nothing ev) evs -> keeps n ->
    forall w0 old, List.length (w_mhandles w0) <= List.length (w_mhandles (wd p)) ->
    (forall h, In h (node_handles n) -> In h old \/ List.length (w_mhandles w0) <= h) ->
    (forall h mi, owns (wd p) h mi -> owns w0 h mi /\ ~ In h old \/ In h (node_handles n) \/ a_default (p_app p) = Some h) ->
    (forall h mi, owns w0 h mi -> ~ In h old -> owns (wd p) h mi) ->
    (forall h mi, owns (wd p1) h mi -> owns w0 h mi /\ ~ In h old \/ In h (node_handles n1) \/ a_default (p_app p1) = Some h)
    /\ (forall h mi, owns w0 h mi -> ~ In h old -> owns (wd p1) h mi)).
  { induction evs as [|ev evs IH]; intros ids p n p1 n1 S F H Fh Kn w0 old Ln Hn Hb Hk; cbn [nrun] in H; [injection H as <- <-; auto|].
    inversion F as [|? ? Pe F']; subst. inversion Fh as [|? ? [Fo Fn] Fh']; subst. destruct (nstep y e ms ev n p) as [p2 n2| |] eqn:E; [|discriminate|eapply IH; eauto].
    destruct (lstate_step _ _ _ _ _ _ S Pe E) as (ids2 & t & f & S2 & C & Pm & _). destruct (Pm Fo) as [Pe1 It].
    assert (K2 : keeps n2) by (eapply shape_step; [|exact Kn|exact Fn|exact E]; auto).
    destruct C as (C1 & C2 & C3 & C4 & C5 & C6). destruct (C6 (conj Fo (conj Fn Kn))) as [B1 B2]. pose proof (passes_steps _ _ _ C2) as [Lp _].
    assert (Lh : forall h, In h (node_handles n) -> h < List.length (w_mhandles (wd p))).
    { intros h I. destruct (ngood_owned _ _ _ _ (ls_good _ _ _ S) I) as [mi X]. now apply handle_lt in X. }
    assert (In2 : forall h, In h f \/ In h (node_handles n) /\ ~ In h t -> In h (node_handles n2)).
    { intros h I. assert (J : In h (t ++ node_handles n2)).
      { eapply Permutation_in; [apply Permutation_sym; exact Pe1|]. apply in_or_app. destruct I as [I|[I _]]; auto. }
      apply in_app_or in J. destruct J as [J|J]; auto. destruct I as [I|[_ I]]; [|contradiction]. destruct (C5 h I) as [X _]. apply It, Lh in J. lia. }
    eapply (IH _ _ _ _ _ S2 F' H Fh' K2 w0 old); [lia| | |].
    - intros h I. assert (J : In h (f ++ node_handles n)) by (eapply Permutation_in; [exact Pe1|apply in_app_tail, I]). apply in_app_or in J. destruct J as [J|J]; auto.
      destruct (C5 h J) as [X _]. right. lia.
    - intros h mi O. destruct (B1 h mi O) as [[O1 N1]|[I|D]]; [|right; left; apply In2; now left|right; now right].
      destruct (Hb h mi O1) as [X|[X|X]]; [now left|right; left; apply In2; right; auto|right; right; now apply C3].
    - intros h mi O No. apply B2; [|now apply Hk]. intros I. apply It in I. destruct (Hn h I) as [X|X]; [contradiction|]. apply handle_lt in O. lia. }
  intros evs ids p n p1 n1 S F H Fh Kn. eapply (Gen _ _ _ _ _ _ S F H Fh Kn (wd p) (node_handles n)); auto.
  intros h mi O. destruct (in_dec Nat.eq_dec h (node_handles n)); auto.
Qed.

(** ** No panic *)

Lemma ms_manager ids p k : lnode ids p -> k < N -> exists m, nth_error (w_mgrs (wd p)) (sm k) = Some m.
Proof.
  intros L Lk. destruct (nth_error ms k) as [h|] eqn:E; [|apply nth_error_None in E; unfold N in Lk; lia].
  destruct (ln_ms _ _ L k h E) as [O _]. pose proof (ln_good _ _ L) as (_ & Ga & _). pose proof (good_cored _ _ _ _ _ _ Ga) as [ids0 Co].
  apply handle_live in O. rewrite <- (o_mcounted _ _ _ _ Co) in O. unfold mstrong_of in O. destruct (nth_error (w_mgrs (wd p)) (sm k)); [eauto|lia].
Qed.
Lemma styles_ready_goes ids p p1 : lnode ids p -> steps e (wd p) (wd p1) -> styles_ready e page p ms sm -> styles_ready e page p1 ms sm.
Proof.
  intros L S [D R]. split; [exact D|]. intros k m Lk Hm. destruct (ms_manager _ _ _ L Lk) as [m0 Hm0].
  destruct (ComponentFacts.settles_steps _ page _ _ _ _ S Hm0 (R k m0 Lk Hm0)) as (m1 & Hm1 & _ & St). congruence.
Qed.
Lemma rereads_all_goes ids p p1 b : lnode ids p -> steps e (wd p) (wd p1) -> rereads_all e p ms sm b -> rereads_all e p1 ms sm b.
Proof.
  intros L S R x I. destruct (R x I) as [R1 R2]. split; [exact R1|]. intros k m Lk Hm. destruct (ms_manager _ _ _ L Lk) as [m0 Hm0].
  destruct (steps_like _ _ _ _ _ S Hm0) as (m1 & Hm1 & Ep & _). rewrite Hm in Hm1. injection Hm1 as <-. rewrite Ep. exact (R2 k m0 Lk Hm0).
Qed.

Definition safe_tree (M : option (list record) -> Prop) (p : prog) : node -> Prop :=
  all_of_node (rereads_all e p ms sm) (fun _ => True) (fun d => d = None) M.
Definition safe_event (p : prog) : event -> Prop := all_of_event (rereads_all e p ms sm) (fun _ => True) (fun d => d = None).
Lemma view_weaken (B B' : list bop -> Prop) (K K' : nat -> Prop) (D D' : option (list record) -> Prop) :
  (forall b, B b -> B' b) -> (forall k, K k -> K' k) -> (forall d, D d -> D' d) -> forall v, all_of_view B K D v -> all_of_view B' K' D' v.
Proof. intros H1 H2 H3. induction v; cbn; auto; intros (A1 & A2 & A3); split; auto. destruct A1; auto. Qed.
Lemma node_weaken (B B' : list bop -> Prop) (K K' : nat -> Prop) (D D' M M' : option (list record) -> Prop) :
  (forall b, B b -> B' b) -> (forall k, K k -> K' k) -> (forall d, D d -> D' d) -> (forall d, M d -> M' d) ->
  forall n, all_of_node B K D M n -> all_of_node B' K' D' M' n.
Proof.
  intros H1 H2 H3 H4. induction n; cbn; auto; intros (A1 & A2 & A3); split; auto; try (split; auto; eapply view_weaken; eauto; fail); destruct A1; auto.
Qed.
Lemma event_weaken (B B' : list bop -> Prop) (K K' : nat -> Prop) (D D' : option (list record) -> Prop) :
  (forall b, B b -> B' b) -> (forall k, K k -> K' k) -> (forall d, D d -> D' d) -> forall ev, all_of_event B K D ev -> all_of_event B' K' D' ev.
Proof. intros H1 H2 H3 [path|path b|path v|path late|path k|o]; cbn; auto. eapply view_weaken; eauto. Qed.

Lemma render_safe ids p ctx cur b : lnode ids p -> below_ok p ctx cur -> styles_ready e page p ms sm -> plain_body [] b -> rereads_all e p ms sm b ->
  exists p1 cls pas, render_component y e ctx b p = Some (p1, cls, pas).
Proof.
  intros L Cx [Rd Rs] Pb Rr. destruct ctx as [h|], cur as [k|]; cbn [below_ok] in Cx; try contradiction.
  - destruct Cx as [Lk O]. destruct (ms_manager _ _ _ L Lk) as [m Hm].
    apply (never_panics_good y e page ids p (Some h) b (m_prefix m)); [apply (ln_good _ _ L)|exact Pb| |].
    + exists (sm k), m. split; [exact O|]. split; [exact Hm|]. split; [exact (Rs k m Lk Hm)|reflexivity].
    + intros x I. destruct (Rr x I) as [_ R]. exact (R k m Lk Hm).
  - apply (never_panics_good y e page ids p None b (lit "stylist")); [apply (ln_good _ _ L)|exact Pb|exact Rd|]. intros x I. exact (proj1 (Rr x I)).
Qed.

Section Safe.
Variable M : option (list record) -> Prop.
Definition safe (act : option nat -> node -> prog -> nres) (p : prog) : Prop :=
  forall ids ctx cur n, lnode ids p -> below_ok p ctx cur -> ngood p cur n -> plain_tree n -> safe_tree M p n -> act ctx n p <> NPanic.
Lemma npanic (g : node -> node) r : nmap g r = NPanic -> r = NPanic.
Proof. destruct r; cbn; congruence. Qed.
Lemma safe_path act p : safe act p -> forall path, safe (fun ctx n p => at_path act ctx path n p) p.
Proof.
  intros S. induction path as [|[|] path IH]; intros ids ctx cur n L Cx Hg Pl Sf H; cbn [at_path] in H.
  - exact (S ids ctx cur n L Cx Hg Pl Sf H).
  - destruct n as [|b ch nx|fr b cls ch nx|k d ch nx|k v ch nx]; try discriminate; apply npanic in H; cbn in Hg, Pl, Sf.
    + apply (IH ids ctx cur ch); tauto.
    + apply (IH ids (Some (v_context v)) (Some k) ch); try tauto. cbn. tauto.
  - destruct n as [|b ch nx|fr b cls ch nx|k d ch nx|k v ch nx]; try discriminate; apply npanic in H; cbn in Hg, Pl, Sf;
      apply (IH ids ctx cur nx); tauto.
Qed.
Lemma again_none v h mi0 mi a : v_data v = None -> owns (a_world a) (v_dep v) mi0 -> owns (a_world a) h mi ->
  exists a1 v1, provide_again y e v h a = Some (a1, v1).
Proof.
  intros D Od O. unfold provide_again. destruct (clone_succeeds e _ _ _ O) as (w1 & c & E). rewrite E. destruct (clone_owns _ _ _ _ _ E) as (_ & _ & A3 & _).
  destruct (same_manager _ _ _); [eauto|]. destruct (clone_succeeds e w1 h mi (A3 _ _ O)) as (w2 & dep & E2). rewrite E2, D. cbn [load_state]. eauto.
Qed.

Lemma step_safe ids p n ev : lstate ids p n -> styles_ready e page p ms sm -> safe_tree M p n -> proper ms ev -> safe_event p ev ->
  is_other ev = false -> (forall path k, ev = EManager path k -> forall d, M d -> d = None) -> nstep y e ms ev n p <> NPanic.
Proof.
  intros [L Hg Pl Ap] Rs Sf [Pe _] Se Io Mn. destruct ev as [path|path b|path v|path late|path k|o]; cbn [nstep is_other] in *; [| | | | |discriminate].
  - refine (safe_path (render_at y e ms) p _ path ids None None n L I Hg Pl Sf). clear n Hg Pl Sf Ap ids L Pe Se Io. intros ids ctx cur n L Cx Hg Pl Sf.
    destruct n as [|b ch nx|fr b cls ch nx|k d ch nx|k v ch nx]; cbn [render_at]; try discriminate; cbn in Pl, Sf.
    + unfold rendered. destruct (render_safe ids p ctx cur b L Cx Rs) as (p1 & cls & pas & ->); [tauto|tauto|discriminate].
    + unfold rendered. destruct (render_safe ids p ctx cur b L Cx Rs) as (p1 & cls' & pas & ->); [tauto|tauto|discriminate].
    + destruct (nth_error ms k) as [h|] eqn:E; [|discriminate]. destruct Sf as ((_ & ->) & _). destruct (ln_ms _ _ L k h E) as [O _].
      destruct (provide_none e h _ _ O) as (a1 & v & ->). discriminate.
  - refine (safe_path (update_at y e b) p _ path ids None None n L I Hg Pl Sf). clear n Hg Pl Sf Ap ids L Io. intros ids ctx cur n L Cx Hg Pl Sf.
    destruct n as [|b0 ch nx|fr b0 cls ch nx|k d ch nx|k v ch nx]; cbn [update_at]; try discriminate; cbn in Pl, Sf, Pe, Se.
    unfold rendered. destruct (render_safe ids p ctx cur b L Cx Rs) as (p1 & cls' & pas & ->); [tauto|tauto|discriminate].
  - refine (safe_path (mount_at v) p _ path ids None None n L I Hg Pl Sf). discriminate.
  - refine (safe_path (unmount_at e late) p _ path ids None None n L I Hg Pl Sf). intros ids' ctx cur n' _ _ _ _ _. destruct n'; discriminate.
  - refine (safe_path (manager_at y e ms k) p _ path ids None None n L I Hg Pl Sf). clear n Hg Sf Ap ids L Se Io Pl. intros ids ctx cur n L Cx Hg Pl Sf.
    unfold manager_at. destruct (nth_error ms k) as [h|] eqn:E; [|discriminate].
    destruct n as [|b0 ch nx|fr b0 cls ch nx|k0 d ch nx|k0 v ch nx]; try discriminate; cbn in Sf, Hg.
    destruct (ln_ms _ _ L k h E) as [O _]. destruct Hg as ((_ & _ & Od) & _). destruct Sf as ((_ & D) & _). apply (Mn _ _ eq_refl) in D.
    destruct (again_none v h _ _ (p_app p) D Od O) as (a1 & v1 & ->). discriminate.
Qed.

(** ** It settles *)

Fixpoint todo (n : node) : nat :=
  match n with
  | NEnd => 0
  | NWait _ ch nx => 1 + nodes ch + todo nx
  | NComp f _ _ ch nx => (if f then 0 else 1) + todo ch + todo nx
  | NProvWait _ _ ch nx => 1 + nodes ch + todo nx
  | NProv _ _ ch nx => todo ch + todo nx
  end.
Lemma todo_waiting v : todo (waiting v NEnd) <= nodes v.
Proof. induction v; cbn; lia. Qed.

Lemma not_settled p : styles_ready e page p ms sm -> forall n ids ctx cur, lnode ids p -> below_ok p ctx cur -> ngood p cur n -> plain_tree n -> safe_tree M p n ->
  settled n = false -> exists path p1 n1, at_path (render_at y e ms) ctx path n p = NNext p1 n1 /\ todo n1 < todo n.
Proof.
  intros Rs. induction n as [|b ch nx IHn|fr b cls ch IHc nx IHn|k d ch nx IHn|k v ch IHc nx IHn]; intros ids ctx cur L Cx Hg Pl Sf Hs; [discriminate| | | |].
  - cbn in Pl, Sf. destruct (render_safe ids p ctx cur b L Cx Rs) as (p1 & cls & pas & R); [tauto|tauto|].
    exists [], p1, (NComp true b cls (waiting ch NEnd) nx). cbn [at_path render_at]. unfold rendered. rewrite R. split; [reflexivity|]. cbn [todo]. pose proof (todo_waiting ch). lia.
  - cbn [settled] in Hs. cbn in Pl, Sf, Hg. destruct fr.
    + cbn [andb] in Hs. destruct (settled ch) eqn:Ec.
      * cbn [andb] in Hs. destruct (IHn ids ctx cur L Cx) as (path & p1 & n1 & E & Lt); [tauto|tauto|tauto|exact Hs|].
        exists (false :: path), p1, (NComp true b cls ch n1). cbn [at_path]. rewrite E. split; [reflexivity|]. cbn [todo]. lia.
      * destruct (IHc ids ctx cur L Cx) as (path & p1 & n1 & E & Lt); [tauto|tauto|tauto|reflexivity|].
        exists (true :: path), p1, (NComp true b cls n1 nx). cbn [at_path]. rewrite E. split; [reflexivity|]. cbn [todo]. lia.
    + destruct (render_safe ids p ctx cur b L Cx Rs) as (p1 & cls' & pas & R); [tauto|tauto|].
      exists [], p1, (NComp true b cls' ch nx). cbn [at_path render_at]. unfold rendered. rewrite R. split; [reflexivity|]. cbn [todo]. lia.
  - cbn in Sf, Pl. destruct Sf as ((_ & ->) & _). destruct Pl as ((Lk & _) & _). destruct (nth_error ms k) as [h|] eqn:E; [|apply nth_error_None in E; unfold N in Lk; lia].
    destruct (ln_ms _ _ L k h E) as [O _]. destruct (provide_none e h _ _ O) as (a1 & v & Pr).
    exists [], (mk_prog a1 (p_cache p)), (NProv k v (waiting ch NEnd) nx). cbn [at_path render_at]. rewrite E, Pr. split; [reflexivity|]. cbn [todo]. pose proof (todo_waiting ch). lia.
  - cbn [settled] in Hs. cbn in Pl, Sf, Hg. destruct (settled ch) eqn:Ec.
    + cbn [andb] in Hs. destruct (IHn ids ctx cur L Cx) as (path & p1 & n1 & E & Lt); [tauto|tauto|tauto|exact Hs|].
      exists (false :: path), p1, (NProv k v ch n1). cbn [at_path]. rewrite E. split; [reflexivity|]. cbn [todo]. lia.
    + destruct (IHc ids (Some (v_context v)) (Some k) L) as (path & p1 & n1 & E & Lt); [cbn; tauto|tauto|tauto|tauto|reflexivity|].
      exists (true :: path), p1, (NProv k v n1 nx). cbn [at_path]. rewrite E. split; [reflexivity|]. cbn [todo]. lia.
Qed.

Lemma safe_goes ids p p1 n : lnode ids p -> steps e (wd p) (wd p1) -> safe_tree M p n -> safe_tree M p1 n.
Proof. intros L S. apply node_weaken; auto. intros b. now apply (rereads_all_goes ids p p1). Qed.

Lemma settles_run (MN : M None) : forall m p n ids, todo n <= m -> lstate ids p n -> styles_ready e page p ms sm -> safe_tree M p n ->
  exists paths p1 n1, nrun y e ms (map ERender paths) n p = NNext p1 n1 /\ settled n1 = true.
Proof.
  induction m as [|m IH]; intros p n ids Lm S Rs Sf; (destruct (settled n) eqn:Hs; [exists [], p, n; auto|]); pose proof S as [L Hg Pl Ap];
    destruct (not_settled p Rs n ids None None L I Hg Pl Sf Hs) as (path & p1 & n1 & E & Lt); [lia|].
  assert (E' : nstep y e ms (ERender path) n p = NNext p1 n1) by exact E.
  assert (Pr : proper ms (ERender path)) by (split; exact I).
  destruct (lstate_step _ _ _ _ _ _ S Pr E') as (ids1 & t & f & S1 & C & _). pose proof C as (_ & St & _).
  assert (Sf1 : safe_tree M p1 n1). { refine (shape_step _ _ _ M _ (ERender path) _ _ _ _ _ I E'); [intros d ->; exact MN|]. eapply safe_goes; [exact L|exact St|exact Sf]. }
  destruct (IH p1 n1 ids1) as (paths & p2 & n2 & R & Hs2); [lia|exact S1|eapply styles_ready_goes; eauto|exact Sf1|].
  exists (path :: paths), p2, n2. cbn [map nrun]. rewrite E'. auto.
Qed.

End Safe.

(** ** Rendered again *)

Lemma fresh_again ids p ctx cur b cls p1 cls1 pas : lnode ids p -> below_ok p ctx cur -> plain_body [] b -> comp_ok p cur true b cls ->
  render_component y e ctx b p = Some (p1, cls1, pas) ->
  cls1 = cls /\ w_draws (wd p1) = w_draws (wd p) /\ nothing_new (wd p) (wd p1).
Proof.
  intros L Cx Pb (mi & Hm & F) R. pose proof (ln_good _ _ L) as P. destruct (change_comp _ _ _ _ _ _ _ _ _ _ P Pb R) as (C & mi' & Hc & _).
  assert (mi' = mi) as ->; [|eapply reuses_good; eauto].
  destruct ctx as [h|], cur as [k|]; cbn [below_ok manager_here context_is] in *; try contradiction.
  - destruct Cx as [_ O]. unfold owns in O. congruence.
  - assert (Lv : forall k, k < N -> mlive (wd p1) (sm k)) by (eapply ms_live; [exact L|exact C|easy]).
    destruct (here_goes ids p ids p1 [] [] _ None mi P C Lv (fun k E => match E with end) Hm) as [(d & Ed & O) _]. destruct Hc as (d' & Ed' & O'). unfold owns in O. congruence.
Qed.
Lemma settled_again : forall path n ids ctx cur p p1 n1, lnode ids p -> below_ok p ctx cur -> ngood p cur n -> plain_tree n -> settled n = true ->
  at_path (render_at y e ms) ctx path n p = NNext p1 n1 ->
  n1 = n /\ w_draws (wd p1) = w_draws (wd p) /\ nothing_new (wd p) (wd p1).
Proof.
  induction path as [|[|] path IH]; intros n ids ctx cur p p1 n1 L Cx Hg Pl Hs H; cbn [at_path] in H.
  - destruct n as [|b ch nx|fr b cls ch nx|k d ch nx|k v ch nx]; cbn [render_at settled] in *; try discriminate. cbn in Pl, Hg.
    destruct fr; [|discriminate]. unfold rendered in H. destruct (render_component y e ctx b p) as [[[p2 cls1] pas]|] eqn:R; [|discriminate]. injection H as <- <-.
    destruct (fresh_again ids p ctx cur b cls p2 cls1 pas L Cx) as (-> & A & B); [tauto|tauto|exact R|]. auto.
  - destruct n as [|b ch nx|fr b cls ch nx|k d ch nx|k v ch nx]; try discriminate; apply nlift in H; destruct H as (n0 & H & ->); cbn in Hg, Pl, Hs;
      rewrite !andb_true_iff in Hs.
    + destruct (IH ch ids ctx cur p p1 n0 L Cx) as (-> & A & B); try tauto.
    + destruct (IH ch ids (Some (v_context v)) (Some k) p p1 n0 L) as (-> & A & B); try tauto. cbn. tauto.
  - destruct n as [|b ch nx|fr b cls ch nx|k d ch nx|k v ch nx]; try discriminate; apply nlift in H; destruct H as (n0 & H & ->); cbn in Hg, Pl, Hs;
      try discriminate; rewrite !andb_true_iff in Hs; destruct (IH nx ids ctx cur p p1 n0 L Cx) as (-> & A & B); try tauto.
Qed.

Lemma lstate_begin ids p : pgood e page ids p -> managers_are p ms sm -> lstate ids p NEnd.
Proof. intros P [_ M]. split; [split; auto|exact I|exact I|]. split; [constructor|easy]. Qed.

Lemma ngood_components p : forall n cur x f b cls, ngood p cur n -> (forall k, cur = Some k -> k < N) ->
  In (x, f, b, cls) (components cur n) -> comp_ok p x f b cls /\ (forall k, x = Some k -> k < N).
Proof.
  induction n as [|b' ch nx IHn|f' b' cls' ch IHc nx IHn|k d ch nx IHn|k v ch IHc nx IHn]; intros cur x f b cls H L I; cbn [ngood components] in *; try contradiction; eauto.
  - destruct H as (A & B & C). destruct I as [E|I]; [injection E as <- <- <- <-; auto|]. apply in_app_or in I. destruct I; eauto.
  - destruct H as (A & B & C). apply in_app_or in I. destruct I; eauto. eapply IHc; eauto. intros k' Ek. injection Ek as <-. apply A.
Qed.
End Living.
