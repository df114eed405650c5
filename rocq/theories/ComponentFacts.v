(** * ComponentFacts: what a rendering of a styled component does, step by step. *)

From Coq Require Import String Ascii List NArith Bool Arith Lia Permutation.
From Verif Require Import Str StrFacts Ast Render CssParser SheetCache Ids IdFacts Manager SpecManager
  ManagerFacts ManagerInv ManagerSteps ManagerCore ManagerProps Hydrate Hooks SpecHooks HookFacts HookOnly
  HookTame HookKeep PropsManager PropsHooks PropsCache SpecProgress PropsProgress Create SpecCreate CreateFacts
  Component SpecComponent.
Import ListNotations.
Local Open Scope list_scope.
Local Opaque parse to_style_str.

(** ** Other code leaves the handles of the function alone *)

Definition kept (h : nat) (w w' : world) : Prop :=
  forall mi, handle_of (w_mhandles w) h = Some mi -> handle_of (w_mhandles w') h = Some mi.
Lemma kept_refl h w : kept h w w. Proof. intros mi H; exact H. Qed.
Lemma kept_trans h a b c : kept h a b -> kept h b c -> kept h a c.
Proof. intros A B mi H. now apply B, A. Qed.
Lemma kept_step e h w o : o <> ODropManager h -> kept h w (fst (step e w o)).
Proof. intros N mi H. now apply step_mhandle_kept. Qed.
Lemma kept_res e h w o w' r : o <> ODropManager h -> step e w o = (w', r) -> kept h w w'.
Proof. intros N S. replace w' with (fst (step e w o)) by now rewrite S. now apply kept_step. Qed.
Lemma kept_default e a a1 h0 h : default_manager e a = Some (a1, h0) -> kept h (a_world a) (a_world a1).
Proof.
  unfold default_manager. destruct (a_default a) as [d|].
  - destruct (step e (a_world a) (OCloneManager d)) as [w [h'| | | | |]] eqn:S; try discriminate. intros H. injection H as <- <-.
    cbn. eapply kept_res; [|exact S]. discriminate.
  - destruct (step e (a_world a) (OBuild _ None true false)) as [w [d| | | | |]] eqn:S; try discriminate.
    destruct (step e w (OCloneManager d)) as [w1 [h'| | | | |]] eqn:S1; try discriminate. intros H. injection H as <- <-.
    cbn. eapply kept_trans; eapply kept_res; [|exact S| |exact S1]; discriminate.
Qed.
Lemma kept_context e ctx a a1 h0 h : context_manager e ctx a = Some (a1, h0) -> kept h (a_world a) (a_world a1).
Proof.
  destruct ctx as [d|]; [|apply kept_default]. cbn [context_manager].
  destruct (step e (a_world a) (OCloneManager d)) as [w [h'| | | | |]] eqn:S; try discriminate. intros H. injection H as <- <-.
  cbn. eapply kept_res; [|exact S]. discriminate.
Qed.
Lemma context_globals e ctx a a1 h : context_manager e ctx a = Some (a1, h) -> a_globals a1 = a_globals a.
Proof.
  intros C. destruct ctx as [d|]; cbn [context_manager] in C; [destruct (step e (a_world a) (OCloneManager d)) as [w [h'| | | | |]]; try discriminate; now injection C as <- _|].
  unfold default_manager in C. destruct (a_default a); [destruct (step e (a_world a) (OCloneManager n)) as [w [h'| | | | |]]; try discriminate; now injection C as <- _|].
  destruct (step e (a_world a) _) as [w [d| | | | |]]; try discriminate. destruct (step e w (OCloneManager d)) as [w1 [h'| | | | |]]; try discriminate. now injection C as <- _.
Qed.
Lemma kept_drop_source e src w h : ~ In h (source_handles src) -> kept h w (drop_source e src w).
Proof.
  unfold drop_source, source_handles. destruct (s_manager src) as [d|]; [|intros _; apply kept_refl]. intros N. apply kept_step.
  intros E. injection E as ->. apply N. now left.
Qed.
Lemma kept_clone_source e src w w1 src1 h mi :
  handle_of (w_mhandles w) h = Some mi -> clone_source e src w = Some (w1, src1) -> kept h w w1 /\ ~ In h (source_handles src1).
Proof.
  intros Hh. apply handle_lt in Hh. unfold clone_source. destruct (s_manager src) as [d|] eqn:Es.
  - destruct (step e w (OCloneManager d)) as [w2 [h'| | | | |]] eqn:S; try discriminate. intros H. injection H as <- <-.
    split; [eapply kept_res; [|exact S]; discriminate|]. destruct (clone_result _ _ _ _ _ S) as (E & _).
    unfold source_handles. cbn. intros [I|[]]. lia.
  - intros H. injection H as <- <-. split; [apply kept_refl|]. unfold source_handles. rewrite Es. intros [].
Qed.
Definition guard_handles (g : guard) : list nat := g_manager g :: source_handles (g_source g).
Lemma kept_drop_value e g w h : kept h w (drop_value e g w).
Proof. unfold drop_value. eapply kept_trans; apply kept_step; discriminate. Qed.
Lemma kept_drop_deps e g w h : ~ In h (guard_handles g) -> kept h w (drop_deps e g w).
Proof.
  intros N. unfold drop_deps. eapply kept_trans; [apply (kept_step e h w (ODropManager (g_manager g)))|apply kept_drop_source].
  - intros E. injection E as E. apply N. now left.
  - intros I. apply N. now right.
Qed.
Lemma kept_drop_guard y e g w h : ~ In h (guard_handles g) -> kept h w (drop_guard y e g w).
Proof.
  intros N. unfold drop_guard. destruct (y_key_first y).
  - eapply kept_trans; [apply kept_drop_deps, N|apply kept_drop_value].
  - eapply kept_trans; [apply kept_drop_value|apply kept_drop_deps, N].
Qed.
Lemma kept_new_guard e h0 src w w' g h : new_guard e h0 src w = Some (w', g) -> kept h w w' /\ guard_handles g = h0 :: source_handles src.
Proof.
  unfold new_guard. destruct (manager_of w h0) as [m|]; [|discriminate].
  destruct (step e w (OCreate h0 _)) as [w1 [x| | | | |]] eqn:S; try discriminate. intros H. injection H as <- <-.
  split; [eapply kept_res; [|exact S]; discriminate|reflexivity].
Qed.
Lemma kept_memo y e old h0 src w w' g h :
  memo y e old h0 src w = Some (w', g) -> h <> h0 -> ~ In h (source_handles src) ->
  (forall g0, old = Some g0 -> ~ In h (guard_handles g0)) ->
  kept h w w' /\ ~ In h (guard_handles g).
Proof.
  intros H N1 N2 O. assert (Nn : ~ In h (h0 :: source_handles src)) by (intros [I|I]; [now apply N1|auto]).
  unfold memo in H. destruct old as [g0|].
  - specialize (O g0 eq_refl). destruct (same_manager _ _ _ && _).
    + injection H as <- <-. split; [|exact O]. eapply kept_trans; [apply (kept_step e h w (ODropManager h0))|apply kept_drop_source, N2].
      intros E. injection E as E. congruence.
    + destruct (y_drop_first y).
      * destruct (kept_new_guard _ _ _ _ _ _ h H) as [K ->]. split; auto. eapply kept_trans; [apply kept_drop_guard, O|exact K].
      * destruct (new_guard e h0 src w) as [[w1 g1]|] eqn:Ng; [|discriminate]. injection H as <- <-.
        destruct (kept_new_guard _ _ _ _ _ _ h Ng) as [K ->]. split; auto. eapply kept_trans; [exact K|apply kept_drop_guard, O].
  - destruct (kept_new_guard _ _ _ _ _ _ h H) as [K ->]. auto.
Qed.
Lemma kept_render y e old ctx src a a' g h mi :
  handle_of (w_mhandles (a_world a)) h = Some mi -> render_global y e old ctx src a = Some (a', g) ->
  (forall g0, old = Some g0 -> ~ In h (guard_handles g0)) ->
  kept h (a_world a) (a_world a') /\ ~ In h (guard_handles g) /\ a_globals a' = a_globals a
  /\ (a_default a' = Some h -> a_default a = Some h).
Proof.
  intros Hh H O. unfold render_global in H. destruct (context_manager e ctx a) as [[a1 h0]|] eqn:C; [|discriminate].
  destruct (clone_source e src (a_world a1)) as [[w1 src1]|] eqn:Cs; [|discriminate].
  destruct (memo y e old h0 src1 w1) as [[w2 g2]|] eqn:M; [|discriminate]. injection H as <- <-.
  pose proof (kept_context _ _ _ _ _ h C) as K1. pose proof (K1 _ Hh) as Hh1.
  destruct (kept_clone_source _ _ _ _ _ _ _ Hh1 Cs) as [K2 N2]. destruct (context_fresh _ _ _ _ _ C) as [Ed Eh]. pose proof (handle_lt _ _ _ Hh) as L.
  destruct (kept_memo _ _ _ _ _ _ _ _ h M) as [K3 N3]; auto; [lia|].
  split; [eapply kept_trans; [exact K1|eapply kept_trans; eauto]|]. split; auto. split.
  - cbn. eapply context_globals; eauto.
  - cbn. intros D. destruct (Ed _ D); auto. lia.
Qed.

Lemma manager_handles_in a h :
  In h (manager_handles a) <-> a_default a = Some h \/ exists i g, nth_error (a_globals a) i = Some (Some g) /\ In h (guard_handles g).
Proof.
  unfold manager_handles. rewrite in_app_iff. split; (intros [H|H]; [left|right]).
  - destruct (a_default a); [|contradiction]. destruct H as [->|[]]. reflexivity.
  - apply in_flat_map in H. destruct H as (g & I & J). apply in_flat_map in I. destruct I as (o & I & J').
    destruct o as [g'|]; [|contradiction]. destruct J' as [->|[]]. apply In_nth_error in I. destruct I as [i I]. exists i, g. auto.
  - rewrite H. now left.
  - destruct H as (i & g & I & J). apply in_flat_map. exists g. split; auto. apply in_flat_map. exists (Some g). split; [|now left].
    eapply nth_error_In; eauto.
Qed.

Lemma kept_astep y e a o a' h mi :
  handle_of (w_mhandles (a_world a)) h = Some mi -> ~ In h (manager_handles a) ->
  astep y e a o = Some a' -> ~ In h (pop_takes (PApp o)) ->
  handle_of (w_mhandles (a_world a')) h = Some mi /\ ~ In h (manager_handles a').
Proof.
  intros Hh N S Np. rewrite manager_handles_in in N.
  assert (Ng : forall i g, nth_error (a_globals a) i = Some (Some g) -> ~ In h (guard_handles g)) by (intros i g I J; apply N; right; eauto).
  assert (Nd : a_default a <> Some h) by (intros X; apply N; now left).
  assert (Fin : forall a1 , kept h (a_world a) (a_world a1) -> (a_default a1 = Some h -> a_default a = Some h) ->
     (forall i g, nth_error (a_globals a1) i = Some (Some g) -> ~ In h (guard_handles g)) ->
     handle_of (w_mhandles (a_world a1)) h = Some mi /\ ~ In h (manager_handles a1)).
  { intros a1 K D G. split; [now apply K|]. rewrite manager_handles_in. intros [X|(i & g & I & J)]; [auto|eapply G; eauto]. }
  destruct o as [o|ctx src|i ctx src|i|src|ctx src]; cbn [astep] in S.
  - destruct (free _ (op_style o) && free _ (op_mhandle o)); [|discriminate].
    assert (K : kept h (a_world a) (fst (step e (a_world a) o))).
    { apply kept_step. intros ->. apply Np. now left. }
    destruct (step e (a_world a) o) as [w r] eqn:E. destruct r; try discriminate; injection S as <-; apply Fin; auto.
  - destruct (render_global y e None ctx src a) as [[a1 g]|] eqn:R; [|discriminate]. injection S as <-.
    destruct (kept_render _ _ _ _ _ _ _ _ _ _ Hh R) as (K & Ngg & Eg & D); [discriminate|]. apply Fin; auto.
    cbn. rewrite Eg. intros i g' I. destruct (Nat.lt_ge_cases i (List.length (a_globals a))) as [L|L].
    + rewrite nth_error_app1 in I by auto. exact (Ng _ _ I).
    + rewrite nth_error_app2 in I by auto. destruct (i - List.length (a_globals a)) as [|j]; [injection I as <-; auto|destruct j; discriminate].
  - destruct (nth_error (a_globals a) i) as [[g|]|] eqn:Hi; try discriminate.
    destruct (render_global y e (Some g) ctx src a) as [[a1 g1]|] eqn:R; [|discriminate]. injection S as <-.
    destruct (kept_render _ _ _ _ _ _ _ _ _ _ Hh R) as (K & Ngg & Eg & D); [intros g0 E; injection E as <-; exact (Ng _ _ Hi)|]. apply Fin; auto.
    cbn. rewrite Eg. intros j g' I. rewrite nth_upd in I. destruct (Nat.eqb i j); [|exact (Ng _ _ I)].
    destruct (nth_error (a_globals a) j); [|discriminate]. cbn in I. injection I as <-. auto.
  - destruct (nth_error (a_globals a) i) as [[g|]|] eqn:Hi; try discriminate. injection S as <-. apply Fin; auto.
    + cbn. apply kept_drop_guard. exact (Ng i g Hi).
    + cbn. intros j g' I. rewrite nth_upd in I. destruct (Nat.eqb i j); [|exact (Ng _ _ I)]. destruct (nth_error (a_globals a) j); discriminate.
  - destruct (user_source a src); [|discriminate]. destruct (into_classes e src a) as [[a1 cl]|] eqn:C; [|discriminate]. injection S as <-.
    unfold into_classes in C. cbn [pop_takes] in Np.
    assert (K : exists a2 h0, match s_manager src with Some h1 => Some (a, h1) | None => default_manager e a end = Some (a2, h0)
       /\ kept h (a_world a) (a_world a2) /\ h <> h0 /\ a_globals a2 = a_globals a /\ (a_default a2 = Some h -> a_default a = Some h)).
    { unfold source_handles in Np. destruct (s_manager src) as [h1|].
      - exists a, h1. split; auto. split; [apply kept_refl|]. split; [intros ->; apply Np; now left|auto].
      - destruct (default_manager e a) as [[a2 h0]|] eqn:D; [|discriminate]. exists a2, h0. split; auto.
        split; [eapply kept_default; eauto|]. destruct (default_fresh _ _ _ _ D) as [Ed Eh]. pose proof (handle_lt _ _ _ Hh).
        split; [lia|]. split; [|intros X; destruct (Ed _ X); auto; lia].
        apply (context_globals e None a a2 h0 D). }
    destruct K as (a2 & h0 & E & K & Nh & Eg & Ed). rewrite E in C. unfold new_style in C. destruct (manager_of (a_world a2) h0) as [m|]; [|discriminate].
    destruct (step e (a_world a2) (OCreate h0 _)) as [w2 [x| | | | |]] eqn:S2; try discriminate. cbv zeta in C.
    destruct (get_id _ x); [|discriminate]. injection C as <- _. apply Fin; auto.
    + cbn [a_world with_world]. eapply kept_trans; [exact K|]. eapply kept_trans; [eapply kept_res; [|exact S2]; discriminate|].
      eapply kept_trans; [apply (kept_step e h w2 (ODropManager h0)); intros X; injection X as X; congruence|apply (kept_step e h _ (ODropStyle x)); discriminate].
    + cbn. rewrite Eg. auto.
  - destruct (user_source a src); [|discriminate]. destruct (use_style e ctx src a) as [[a1 x]|] eqn:C; [|discriminate]. injection S as <-.
    unfold use_style in C. cbn [pop_takes] in Np. destruct (context_manager e ctx a) as [[a2 h0]|] eqn:Cx; [|discriminate].
    unfold new_style in C. destruct (manager_of _ h0) as [m|]; [|discriminate].
    destruct (step e _ (OCreate h0 _)) as [w2 [z| | | | |]] eqn:S2; try discriminate. injection C as <- _.
    destruct (context_fresh _ _ _ _ _ Cx) as [Ed Eh]. pose proof (handle_lt _ _ _ Hh).
    pose proof (context_globals e ctx a a2 h0 Cx) as Eg.
    apply Fin.
    + cbn [a_world with_world]. eapply kept_trans; [eapply kept_context; eauto|]. eapply kept_trans; [apply (kept_drop_source e src)|].
      { exact Np. }
      eapply kept_trans; [eapply kept_res; [|exact S2]; discriminate|]. apply (kept_step e h w2 (ODropManager h0)). intros X; injection X as X. lia.
    + cbn. intros X. destruct (Ed _ X); auto. lia.
    + cbn. rewrite Eg. auto.
Qed.

Lemma given_handles c : given c = option_list (call_handle c) ++ option_list (css_manager (call_css c)).
Proof. unfold given, option_list. reflexivity. Qed.
Lemma call_given loc c : pop_takes (PCall loc c) = given c. Proof. reflexivity. Qed.
Lemma takes_handles o h : In h (pop_takes o) -> In h (pop_handles o).
Proof.
  destruct o as [[o|ctx src|i ctx src|i|src|ctx src]|loc c|s]; cbn [pop_takes pop_handles]; auto; try contradiction.
  - destruct o; cbn; auto; try contradiction.
  - intros I. apply in_or_app. now right.
Qed.

Lemma kept_pstep y e page ids p o p1 h mi :
  pgood e page ids p -> handle_of (w_mhandles (a_world (p_app p))) h = Some mi -> ~ In h (manager_handles (p_app p)) ->
  pstep y e p o = Some p1 -> ~ In h (pop_takes o) ->
  handle_of (w_mhandles (a_world (p_app p1))) h = Some mi /\ ~ In h (manager_handles (p_app p1)).
Proof.
  intros (K & G & D) Hh N S Np. destruct o as [o|loc c|s]; cbn [pstep] in S.
  - destruct (astep y e (p_app p) o) as [a|] eqn:A; [|discriminate]. injection S as <-. eapply kept_astep; eauto.
  - destruct (user_call (p_app p) c) eqn:U; [|discriminate]. destruct (perform e loc c p) as [p2 r] eqn:P.
    assert (p2 = p1 /\ r <> Panicked) as [-> Nr] by (destruct r; try discriminate; injection S as <-; split; auto; discriminate).
    assert (Nd : call_handle c = None -> default_manager e (p_app p) <> None).
    { intros Hc Dn. destruct (perform_default _ _ _ _ _ _ Hc Dn P) as [_ ->]. now elim Nr. }
    rewrite call_given in Np. rewrite manager_handles_in in N.
    assert (Fin : forall p0, perform e loc c p0 = (p1, r) -> app_good e page ids (p_app p0) -> cache_ok (p_cache p0) -> user_call (p_app p0) c = true ->
       (call_handle c = None -> default_manager e (p_app p0) <> None) ->
       handle_of (w_mhandles (a_world (p_app p0))) h = Some mi -> a_globals (p_app p0) = a_globals (p_app p) ->
       (a_default (p_app p0) <> Some h) -> (call_handle c = None -> a_default (p_app p0) <> None) ->
       handle_of (w_mhandles (a_world (p_app p1))) h = Some mi /\ ~ In h (manager_handles (p_app p1))).
    { intros p0 P0 G0 K0 U0 N0 H0 Eg Ed En. destruct (perform_spec e page ids loc c p0 p1 r K0 G0 U0 N0 P0) as (_ & Eg1 & _ & Dd & De & _ & Hk & _).
      assert (E1 : a_default (p_app p1) <> Some h).
      { destruct (call_handle c) eqn:Hc; [rewrite De; auto; discriminate|]. destruct (a_default (p_app p0)) as [d|]; [|now elim (En eq_refl)].
        rewrite (Dd d eq_refl). exact Ed. }
      split; [rewrite Hk; auto|]. rewrite manager_handles_in. intros [X|(i & g & I & J)]; [auto|]. apply N. right. exists i, g. split; auto. congruence. }
    destruct (call_handle c) as [hc|] eqn:Hc.
    + apply (Fin p); auto; intros; discriminate.
    + destruct (a_default (p_app p)) as [d|] eqn:Ed.
      * apply (Fin p); auto; intros; try congruence; try (intros X; apply N; left; congruence).
      * destruct (default_first e page ids (p_app p) G Ed) as [X|(a0 & h0 & D1 & D2 & D3 & D4 & D5 & D6 & D7)]; [now elim (Nd eq_refl)|].
        pose proof (handle_lt _ _ _ Hh) as L. assert (Ne : h <> h0) by lia.
        assert (N0 : default_manager e a0 <> None) by (rewrite <- D1; auto).
        rewrite (perform_first e loc c p a0 Hc D1 N0) in P.
        apply (Fin (mk_prog a0 (p_cache p))); auto; cbn [p_app].
        -- eapply user_call_first; eauto.
        -- now rewrite D7.
        -- congruence.
        -- congruence.
  - injection S as <-. auto.
Qed.

(** ** Making a source with a manager into classes *)

Lemma drop_style_spec e w x cid :
  cored e w -> handle_of (w_handles w) x = Some cid ->
  let w' := fst (step e w (ODropStyle x)) in
  w_handles w' = upd (w_handles w) x (fun _ => None) /\ w_mhandles w' = w_mhandles w /\ w_mgrs w' = w_mgrs w
  /\ w_draws w' = w_draws w /\ List.length (w_contents w') = List.length (w_contents w)
  /\ ((exists mi k, registered w mi k cid) -> w_dom w' = w_dom w).
Proof.
  intros [ids C] H w'. subst w'. cbn [step]. unfold drop_style. rewrite H. cbn [fst].
  match goal with |- context [release e cid ?v] => set (v0 := v) end.
  destruct (release_frame e cid v0) as (F1 & F2 & F3 & F4 & F5). cbv zeta in *.
  split; [exact F3|]. split; [exact F4|]. split; [exact F2|]. split; [exact F1|]. split.
  - apply (f_equal (@List.length _)) in F5. rewrite !map_length in F5. exact F5.
  - intros (mi & k & m & Hm & I). pose proof (reg_refs_in _ _ _ _ _ Hm I) as R. pose proof (handle_live _ _ _ H) as L.
    pose proof (o_counted _ _ _ _ C cid) as Cn. rewrite cnt_nil in Cn. unfold strong_of in Cn. unfold release.
    change (w_contents v0) with (w_contents w). destruct (nth_error (w_contents w) cid) as [c|]; [|lia].
    cbv zeta. replace (Nat.eqb (Nat.pred (c_strong c)) 0) with false by (symmetry; apply Nat.eqb_neq; lia). reflexivity.
Qed.

Lemma classes_are_impl e src h a m :
  s_manager src = Some h -> manager_of (a_world a) h = Some m ->
  into_classes e src a =
    let (w, r) := create_impl e (Some (m_prefix m)) (mk_source (s_sheet src) None (s_location src)) h (a_world a) in
    match r with
    | Created x => match get_id w x with
                   | None => None
                   | Some class => Some (with_world a (fst (step e w (ODropStyle x))),
                                         class :: match s_location src with Some l => [l] | None => [] end)
                   end
    | _ => None
    end.
Proof.
  intros Es Hm. unfold into_classes, create_impl, new_style, drop_source. rewrite Es. cbn [s_manager s_sheet]. rewrite Hm.
  destruct (step e (a_world a) (OCreate h (style_key (m_prefix m) (s_sheet src)))) as [w2 [x| | | | |]]; reflexivity.
Qed.

Lemma classes_spec e page ids src h a mi m :
  app_good e page ids a -> s_manager src = Some h -> ~ In h (manager_handles a) ->
  handle_of (w_mhandles (a_world a)) h = Some mi -> nth_error (w_mgrs (a_world a)) mi = Some m ->
  (rereads e (style_key (m_prefix m) (s_sheet src)) -> settles e page m -> exists a' cl, into_classes e src a = Some (a', cl))
  /\ forall a' cl, into_classes e src a = Some (a', cl) ->
     app_good e page ids a' /\ a_globals a' = a_globals a /\ a_default a' = a_default a /\ steps e (a_world a) (a_world a')
     /\ List.length (w_mhandles (a_world a')) = List.length (w_mhandles (a_world a)) /\ took [h] (a_world a) (a_world a')
     /\ w_handles (a_world a') = w_handles (a_world a) ++ [None]
     /\ (exists cid c, nth_error (w_contents (a_world a')) cid = Some c /\ c_key c = style_key (m_prefix m) (s_sheet src) /\ c_mgr c = mi
           /\ cl = c_id c :: match s_location src with Some l => [l] | None => [] end
           /\ (mlive (a_world a') mi -> registered (a_world a') mi (style_key (m_prefix m) (s_sheet src)) cid))
     /\ (forall cid, registered (a_world a) mi (style_key (m_prefix m) (s_sheet src)) cid ->
           w_draws (a_world a') = w_draws (a_world a)
           /\ ((forall mj, mlive (a_world a) mj -> mlive (a_world a') mj) -> nothing_new (a_world a) (a_world a'))).
Proof.
  intros G Es N Hh Hm. assert (Mo : manager_of (a_world a) h = Some m) by (unfold manager_of; now rewrite Hh).
  pose proof (classes_are_impl e src h a m Es Mo) as Ei.
  set (src0 := mk_source (s_sheet src) None (s_location src)) in *.
  assert (Ga : good e page ids (a_world a) (guards a) (h :: source_handles src0 ++ dflt a)).
  { cbn [source_handles src0 s_manager List.app]. eapply good_add; [exact G| |exact Hh]. rewrite app_owned in N. exact N. }
  destruct (create_impl e (Some (m_prefix m)) src0 h (a_world a)) as [w r] eqn:P.
  destruct (impl_spec e page ids _ _ _ _ _ _ _ _ Ga P) as (G1 & S1 & L1 & H1 & mi' & m' & Hh' & Hm' & Md).
  rewrite Hh in Hh'. injection Hh' as <-. rewrite Hm in Hm'. injection Hm' as <-.
  change (key_of (Some (m_prefix m)) m (s_sheet src0)) with (style_key (m_prefix m) (s_sheet src)) in Md.
  pose proof (impl_reused e page ids _ _ _ _ _ _ _ _ _ _ Ga P Hh Hm) as Ru.
  change (key_of (Some (m_prefix m)) m (s_sheet src0)) with (style_key (m_prefix m) (s_sheet src)) in Ru.
  pose proof (good_cored _ _ _ _ _ _ G1) as C1.
  split.
  - intros Rr St. destruct (impl_succeeds e page ids _ _ _ _ _ _ _ _ _ _ Ga P Hh Hm Rr St) as [x ->].
    destruct Md as (cid & c & M1 & M2 & M3 & _). rewrite Ei.
    assert (Hx : handle_of (w_handles w) x = Some cid) by (rewrite M1, M2, handle_app_eq, Nat.eqb_refl; reflexivity).
    unfold get_id, handle_content. rewrite Hx, M3. cbn. eauto.
  - intros a' cl H. rewrite Ei in H. destruct r as [x| | |]; try discriminate.
    destruct Md as (cid & c & M1 & M2 & M3 & M4 & M5 & M6).
    assert (Hx : handle_of (w_handles w) x = Some cid) by (rewrite M1, M2, handle_app_eq, Nat.eqb_refl; reflexivity).
    assert (Gi : get_id w x = Some (c_id c)) by (unfold get_id, handle_content; now rewrite Hx, M3).
    rewrite Gi in H.
    destruct (drop_style_spec e w x cid C1 Hx) as (D1 & D2 & D3 & D4 & D5 & D6). cbv zeta in *.
    set (w2 := fst (step e w (ODropStyle x))) in *.
    assert (S2 : steps e w w2) by (apply steps_one; tm).
    assert (Ea : a' = with_world a w2) by (injection H as <- _; reflexivity).
    assert (Ecl : cl = c_id c :: match s_location src with Some l => [l] | None => [] end) by (injection H as _ <-; reflexivity).
    clear H. subst a' cl. cbn [a_world with_world a_globals a_default].
    assert (Reg2 : forall mj k z, registered w2 mj k z <-> registered w mj k z) by (intros mj k z; unfold registered; now rewrite D3).
    assert (Lv2 : forall mj, mlive w2 mj <-> mlive w mj) by (intros mj; unfold mlive; now rewrite D2).
    split.
    { unfold app_good. cbn [a_world with_world]. change (guards (with_world a w2)) with (guards a). change (dflt (with_world a w2)) with (dflt a).
      apply good_step; auto; [|discriminate]. intros h' E. injection E as <-. intros I. apply in_map_iff in I. destruct I as (g' & Eg' & I).
      pose proof (gd_guards _ _ _ _ _ _ G) as GG. rewrite Forall_forall in GG. destruct (GG _ I) as (_ & _ & c' & _ & _ & _ & Hg & _). apply handle_lt in Hg. lia. }
    split; auto. split; auto. split; [eapply steps_trans; eauto|]. split; [congruence|]. split.
    { apply took_of. intros j. rewrite D2, H1. reflexivity. }
    split. { rewrite D1, M1, M2. clear. induction (w_handles (a_world a)) as [|o l IH]; cbn; [reflexivity|]. now rewrite IH. }
    split.
    { destruct (steps_contents e w w2 cid c S2 M3) as (c2 & Hc2 & B). apply base_fields in B. destruct B as (B1 & B2 & _ & B4 & _).
      exists cid, c2. split; auto. split; [congruence|]. split; [congruence|]. split; [now rewrite B1|]. intros Lv. apply Reg2, M6. now apply Lv2. }
    intros cid0 R. destruct (Ru cid0 R) as (x0 & _ & R2 & R3 & R4). split; [congruence|]. intros A.
    assert (A' : forall mj, mlive (a_world a) mj -> mlive w mj) by (intros mj L; apply Lv2; auto).
    specialize (R4 A'). eapply nothing_new_trans; [exact R4|]. split; [|split; [exact D5|apply Reg2]].
    apply D6. exists mi, (style_key (m_prefix m) (s_sheet src)). apply M6, A'. now exists h.
Qed.

(** ** The variables of the function *)

Lemma pgood_world e page ids p a1 :
  pgood e page ids p -> app_good e page ids a1 -> steps e (a_world (p_app p)) (a_world a1) ->
  a_default a1 = a_default (p_app p) -> pgood e page ids (mk_prog a1 (p_cache p)).
Proof.
  intros (K & G & D) G1 S E. split; [|split]; auto. cbn [p_app]. destruct (a_default (p_app p)) as [d|] eqn:Ed.
  - eapply default_stays; eauto.
  - intros d H. congruence.
Qed.
Lemma good_forget e page ids w gs extra h : good e page ids w gs (h :: extra) -> good e page ids w gs extra.
Proof. intros [R G S O L]. cbn [List.app] in *. split; auto; [now inversion O|now inversion L]. Qed.
Lemma pgood_context e page ids p ctx a1 h :
  pgood e page ids p -> context_manager e ctx (p_app p) = Some (a1, h) -> pgood e page ids (mk_prog a1 (p_cache p)).
Proof.
  intros (K & G & D) C. pose proof (good_context _ _ _ _ _ _ _ G C) as [G1 _]. apply good_forget in G1.
  split; [|split]; auto. cbn [p_app].
  assert (Z : forall a0, app_good e page ids a0 -> default_as_documented e a0 -> a_default a0 <> None -> context_manager e ctx a0 = Some (a1, h) ->
              default_as_documented e a1).
  { intros a0 G0 D0 N C0. destruct (a_default a0) as [d|] eqn:E; [|easy]. destruct (steps_context _ _ _ _ _ C0) as (S & Dd & _).
    eapply default_stays; eauto. }
  destruct (a_default (p_app p)) as [d|] eqn:E; [apply (Z (p_app p)); auto; congruence|].
  destruct ctx as [c|]; cbn [context_manager] in C.
  - destruct (step e _ (OCloneManager c)) as [w [x| | | | |]]; try discriminate. injection C as <- _. intros d Ed. cbn in Ed. congruence.
  - destruct (default_first e page ids _ G E) as [X|(a0 & h0 & D1 & D2 & D3 & D4 & D5 & _)]; [congruence|].
    apply (Z a0); auto; cbn [context_manager]; congruence.
Qed.

Definition came_from (x : option str * sheet) (o : option source) : Prop :=
  match o with
  | Some src => s_sheet src = snd x /\ s_location src = fst x /\ s_manager src <> None
  | None => True
  end.
Record fgood (e : env) (page : dom) (ids : list str) (mi : nat) (made : list (option str * sheet)) (f : frame) : Prop := mk_fgood
  { fg_prog : pgood e page ids (f_prog f);
    fg_nodup : NoDup (frame_handles f);
    fg_live : forall h, In h (frame_handles f) ->
      handle_of (w_mhandles (a_world (p_app (f_prog f)))) h = Some mi /\ ~ In h (manager_handles (p_app (f_prog f)));
    fg_made : Forall2 came_from made (f_sources f) }.

Lemma manager_handles_same a a' : a_globals a' = a_globals a -> a_default a' = a_default a -> manager_handles a' = manager_handles a.
Proof. unfold manager_handles, guards. now intros -> ->. Qed.

Lemma sources_handles_app l l' : sources_handles (l ++ l') = sources_handles l ++ sources_handles l'.
Proof. unfold sources_handles. apply flat_map_app. Qed.
Lemma sources_handles_take l i src :
  nth_error l i = Some (Some src) ->
  exists l1 l2, sources_handles l = l1 ++ source_handles src ++ l2 /\ sources_handles (upd l i (fun _ => None)) = l1 ++ l2.
Proof.
  revert i. induction l as [|o l IH]; intros [|i] H; cbn in H; try discriminate.
  - injection H as ->. exists [], (sources_handles l). split; reflexivity.
  - destruct (IH i H) as (l1 & l2 & A & B). exists ((match o with Some src => source_handles src | None => [] end) ++ l1), l2.
    unfold sources_handles in *. cbn [flat_map upd]. rewrite A, B. now rewrite <- !app_assoc.
Qed.
Lemma Forall2_upd {A B} (R : A -> B -> Prop) l l' i f :
  Forall2 R l l' -> (forall a b, R a b -> R a (f b)) -> Forall2 R l (upd l' i f).
Proof. intros H K. revert i. induction H as [|a b l l' Hab Hl IH]; intros [|i]; cbn; constructor; auto. Qed.
Lemma Forall2_nth_r {A B} (R : A -> B -> Prop) l l' i b :
  Forall2 R l l' -> nth_error l' i = Some b -> exists a, nth_error l i = Some a /\ R a b.
Proof. intros H. revert i. induction H as [|a b' l l' Hab _ IH]; intros [|i] K; cbn in *; try discriminate; [injection K as <-; eauto|auto]. Qed.

(** A style of the function stays the one with these classes while its manager lives. *)
Lemma classes_in_steps e w w' mi x cl :
  steps e w w' -> cored e w -> classes_in w mi x cl -> mlive w' mi -> classes_in w' mi x cl.
Proof.
  intros S C (m & cid & c & Hm & R & Hc & ->) L. destruct (steps_like _ _ _ _ _ S Hm) as (m' & Hm' & E & _).
  destruct (steps_contents _ _ _ _ _ S Hc) as (c' & Hc' & B). apply base_fields in B. destruct B as (B1 & _).
  exists m', cid, c'. split; auto. split; [|split; auto; now rewrite B1]. rewrite E.
  destruct (keep_steps _ _ _ _ (mk_key false (m_prefix m) (snd x)) _ S C eq_refl R) as [|[_ Dd]]; auto. destruct L as [h L]. now elim (Dd h).
Qed.

(** What a step makes and asks for. *)
Definition makes (o : bop) : list (option str * sheet) := match o with BCss loc s => [(loc, s)] | _ => [] end.
Definition asked (made : list (option str * sheet)) (o : bop) : list (option str * sheet) :=
  match o with BClasses i => match nth_error made i with Some x => [x] | None => [] end | _ => [] end.
Lemma asks_cons made o b : asks made (o :: b) = asked made o ++ asks (made ++ makes o) b.
Proof. destruct o; cbn; rewrite ?app_nil_r; reflexivity. Qed.

Lemma forallb_not_in l l' :
  forallb (fun h => negb (existsb (Nat.eqb h) l)) l' = true -> forall h, In h l -> ~ In h l'.
Proof.
  intros H h I J. rewrite forallb_forall in H. apply H in J. apply negb_true_iff in J.
  assert (existsb (Nat.eqb h) l = true) by (apply existsb_exists; exists h; split; auto; apply Nat.eqb_refl). congruence.
Qed.

Lemma bstep_good y e page ids mi made f o f1 :
  fgood e page ids mi made f -> bstep y e f o = Some f1 ->
  fgood e page (ids ++ bloaded [o]) mi (made ++ makes o) f1 /\ f_manager f1 = f_manager f
  /\ (bunregisters o = false ->
        steps e (a_world (p_app (f_prog f))) (a_world (p_app (f_prog f1)))
        /\ forall d, a_default (p_app (f_prog f)) = Some d -> a_default (p_app (f_prog f1)) = Some d)
  /\ exists l, f_classes f1 = f_classes f ++ l /\ Forall2 (classes_in (a_world (p_app (f_prog f1))) mi) (asked made o) l.
Proof.
  intros [P Nd Lv Mk] H. destruct o as [loc s|i|i|o]; cbn [bstep] in H.
  - (* css! *)
    destruct (step e (a_world (p_app (f_prog f))) (OCloneManager (f_manager f))) as [w [h| | | | |]] eqn:S; try discriminate.
    cbv beta iota delta [with_manager from_sheet drop_source s_manager s_sheet s_location] in H. injection H as <-.
    destruct (clone_frame _ _ _ _ _ S) as (F1 & F2 & F3 & F4 & mj & F5 & F6).
    destruct (Lv (f_manager f)) as [Lm Om]; [now left|]. rewrite Lm in F5. injection F5 as <-.
    assert (St : steps e (a_world (p_app (f_prog f))) w) by (eapply steps_res; [|exact S]; tm).
    pose proof P as (K & G & D).
    assert (Gw : app_good e page ids (with_world (p_app (f_prog f)) w)).
    { unfold app_good. cbn [a_world with_world]. change (guards (with_world _ w)) with (guards (p_app (f_prog f))). change (dflt (with_world _ w)) with (dflt (p_app (f_prog f))).
      replace w with (fst (step e (a_world (p_app (f_prog f))) (OCloneManager (f_manager f)))) by now rewrite S. apply good_step; auto; discriminate. }
    cbn [f_prog f_manager f_sources f_classes f_passed makes asked bloaded flat_map].
    split; [|split; [reflexivity|split; [intros _; split; [exact St|auto]|exists []; split; [now rewrite app_nil_r|constructor]]]].
    rewrite app_nil_r. split; cbn [f_prog f_manager f_sources p_app a_world with_world].
    + apply pgood_world; auto.
    + unfold frame_handles in *. cbn [f_manager f_sources]. rewrite sources_handles_app. cbn.
      change (f_manager f :: sources_handles (f_sources f) ++ [h]) with ((f_manager f :: sources_handles (f_sources f)) ++ [h]).
      apply (Permutation_NoDup (Permutation_app_comm [h] _)). constructor; auto. intros I. apply Lv in I. destruct I as [I _]. apply handle_lt in I. lia.
    + intros j I. unfold frame_handles in I. cbn [f_manager f_sources] in I. rewrite sources_handles_app in I. cbn in I.
      rewrite (manager_handles_same (p_app (f_prog f))) by reflexivity. rewrite F6.
      assert (J : In j (frame_handles f) \/ j = h) by (unfold frame_handles; rewrite in_app_iff in I; cbn in *; intuition).
      destruct J as [J| ->].
      * destruct (Lv j J) as [A B]. split; auto. pose proof (handle_lt _ _ _ A) as L. unfold handle_of in *. rewrite nth_error_app1; auto.
      * split; [subst h; unfold handle_of; now rewrite nth_app_new|]. intros X. rewrite app_owned in X.
        pose proof (gd_live _ _ _ _ _ _ G) as GL. rewrite Forall_forall in GL. destruct (GL _ X) as [mk Hk]. apply handle_lt in Hk. lia.
    + apply Forall2_app; auto. repeat constructor. cbn. discriminate.
  - (* classes *)
    destruct (nth_error (f_sources f) i) as [[src|]|] eqn:Ei; try discriminate.
    destruct (into_classes e src (p_app (f_prog f))) as [[a1 cl]|] eqn:Ic; [|discriminate]. injection H as <-.
    destruct (Forall2_nth_r _ _ _ _ _ Mk Ei) as ([loc s] & Em & E1 & E2 & E3). cbn [fst snd] in *.
    destruct (s_manager src) as [h|] eqn:Es; [|easy]. clear E3.
    destruct (sources_handles_take _ _ _ Ei) as (l1 & l2 & Q1 & Q2). unfold source_handles in Q1. rewrite Es in Q1.
    assert (Ih : In h (frame_handles f)) by (unfold frame_handles; rewrite Q1; right; apply in_or_app; right; now left).
    destruct (Lv h Ih) as [Hh Oh]. pose proof P as (K & G & D).
    destruct (mlive_mgr e (a_world (p_app (f_prog f))) mi (good_cored _ _ _ _ _ _ G)) as [m Hm]; [now exists h|].
    destruct (classes_spec e page ids src h (p_app (f_prog f)) mi m G Es Oh Hh Hm) as [_ Sp].
    destruct (Sp _ _ Ic) as (G1 & Eg & Ed & St & Lh & [T1 T2] & Hs & (cid & c & C1 & C2 & C3 & C4 & C5) & _). clear Sp.
    assert (Nd2 : NoDup (f_manager f :: l1 ++ l2) /\ ~ In h (f_manager f :: l1 ++ l2)).
    { unfold frame_handles in Nd. rewrite Q1 in Nd. change (NoDup ((f_manager f :: l1) ++ h :: l2)) in Nd. apply NoDup_remove in Nd. exact Nd. }
    assert (Lv2 : forall j, In j (f_manager f :: l1 ++ l2) -> handle_of (w_mhandles (a_world a1)) j = Some mi /\ ~ In j (manager_handles a1)).
    { intros j I. rewrite (manager_handles_same (p_app (f_prog f))) by auto. rewrite T2.
      - apply Lv. unfold frame_handles. rewrite Q1. cbn in *. rewrite in_app_iff in *. cbn. tauto.
      - intros [<-|[]]. now apply Nd2. }
    cbn [f_prog f_manager f_sources f_classes f_passed makes asked bloaded flat_map p_app]. rewrite !app_nil_r.
    split; [|split; [reflexivity|split; [intros _; split; [exact St|rewrite Ed; auto]|]]].
    + split; cbn [f_prog f_manager f_sources p_app]; auto.
      * apply pgood_world; auto.
      * unfold frame_handles. cbn [f_manager f_sources]. rewrite Q2. apply Nd2.
      * unfold frame_handles. cbn [f_manager f_sources]. rewrite Q2. exact Lv2.
      * apply Forall2_upd; auto. intros; exact I.
    + exists [cl]. split; auto. rewrite Em. constructor; [|constructor].
      destruct (steps_like _ _ _ _ _ St Hm) as (m1 & Hm1 & Ep & _). exists m1, cid, c. split; auto. cbn [fst snd]. rewrite Ep.
      assert (Ek : mk_key false (m_prefix m) s = style_key (m_prefix m) (s_sheet src)) by (now rewrite E1).
      rewrite Ek. split; [|split; auto; now rewrite C4, E2]. apply C5. exists (f_manager f). apply Lv2. now left.
  - (* handed on *)
    destruct (nth_error (f_sources f) i) as [[src|]|] eqn:Ei; try discriminate. injection H as <-.
    destruct (sources_handles_take _ _ _ Ei) as (l1 & l2 & Q1 & Q2).
    cbn [f_prog f_manager f_sources f_classes f_passed makes asked bloaded flat_map]. rewrite !app_nil_r.
    split; [|split; [reflexivity|split; [intros _; split; [apply steps_refl|auto]|exists []; split; [now rewrite app_nil_r|constructor]]]].
    split; cbn [f_prog f_manager f_sources]; auto.
    + unfold frame_handles in *. cbn [f_manager f_sources]. rewrite Q2, Q1 in *. destruct (source_handles src) as [|a [|b l]] eqn:X; auto.
      * change (NoDup ((f_manager f :: l1) ++ a :: l2)) in Nd. apply NoDup_remove in Nd. exact (proj1 Nd).
      * unfold source_handles in X. destruct (s_manager src); discriminate.
    + unfold frame_handles in *. cbn [f_manager f_sources]. intros j I. apply Lv. rewrite Q1. rewrite Q2 in I. cbn in *. rewrite !in_app_iff in *. tauto.
    + apply Forall2_upd; auto. intros; exact I.
  - (* other code *)
    destruct (forallb _ (pop_handles o)) eqn:Fb; [|discriminate]. destruct (pstep y e (f_prog f) o) as [p1|] eqn:S; [|discriminate]. injection H as <-.
    cbn [f_prog f_manager f_sources f_classes f_passed makes asked]. rewrite app_nil_r.
    split; [|split; [reflexivity|split; [intros U; eapply steps_pstep; eauto|exists []; split; [now rewrite app_nil_r|constructor]]]].
    split; cbn [f_prog f_manager f_sources]; auto.
    + replace (bloaded [BDo o]) with (ploaded [o]) by (unfold bloaded; cbn [flat_map]; symmetry; apply app_nil_r). eapply pgood_pstep; eauto.
    + intros j I. change (In j (frame_handles f)) in I. destruct (Lv j I) as [A B]. eapply kept_pstep; eauto. intros T. apply takes_handles in T. revert T. eapply forallb_not_in; eauto.
Qed.

Lemma Forall2_weaken {A B} (R R' : A -> B -> Prop) l l' : (forall a b, R a b -> R' a b) -> Forall2 R l l' -> Forall2 R' l l'.
Proof. intros K H. induction H; constructor; auto. Qed.

Lemma brun_good y e page mi : forall body ids made f f1,
  fgood e page ids mi made f -> brun y e f body = Some f1 ->
  fgood e page (ids ++ bloaded body) mi (made ++ flat_map makes body) f1 /\ f_manager f1 = f_manager f
  /\ (existsb bunregisters body = false ->
        steps e (a_world (p_app (f_prog f))) (a_world (p_app (f_prog f1)))
        /\ (forall d, a_default (p_app (f_prog f)) = Some d -> a_default (p_app (f_prog f1)) = Some d)
        /\ exists l, f_classes f1 = f_classes f ++ l /\ Forall2 (classes_in (a_world (p_app (f_prog f1))) mi) (asks made body) l).
Proof.
  induction body as [|o body IH]; intros ids made f f1 G H; cbn [brun] in H.
  - injection H as <-. cbn. rewrite !app_nil_r. split; auto. split; auto. intros _. split; [apply steps_refl|]. split; auto.
    exists []. split; [now rewrite app_nil_r|constructor].
  - destruct (bstep y e f o) as [f2|] eqn:B; [|discriminate]. destruct (bstep_good _ _ _ _ _ _ _ _ _ G B) as (G2 & M2 & S2 & l2 & C2 & F2).
    destruct (IH _ _ _ _ G2 H) as (G1 & M1 & S1).
    split; [|split; [congruence|]].
    { replace (ids ++ bloaded (o :: body)) with ((ids ++ bloaded [o]) ++ bloaded body)
        by (unfold bloaded; cbn [flat_map]; now rewrite app_nil_r, <- app_assoc).
      replace (made ++ flat_map makes (o :: body)) with ((made ++ makes o) ++ flat_map makes body) by (cbn [flat_map]; now rewrite <- app_assoc).
      exact G1. }
    cbn [existsb]. rewrite orb_false_iff. intros [U1 U2]. destruct (S2 U1) as [St2 Dd2]. destruct (S1 U2) as (St1 & Dd1 & l1 & C1 & F1).
    split; [eapply steps_trans; eauto|]. split; auto. exists (l2 ++ l1). rewrite C1, C2, <- app_assoc. split; auto.
    rewrite asks_cons. apply Forall2_app; auto. pose proof (fg_prog _ _ _ _ _ _ G2) as (_ & Ga & _).
    assert (L : mlive (a_world (p_app (f_prog f1))) mi) by (exists (f_manager f1); apply (fg_live _ _ _ _ _ _ G1); now left).
    eapply Forall2_weaken; [|exact F2]. intros x cl. cbn. intros Ci. eapply classes_in_steps; [exact St1|exact (good_cored _ _ _ _ _ _ Ga)|exact Ci|exact L].
Qed.

(** ** The end of the function *)

Definition drop_list (e : env) (l : list (option source)) (w : world) : world :=
  fold_left (fun w o => match o with Some src => drop_source e src w | None => w end) l w.

Lemma steps_same e w w1 w2 :
  cored e w -> steps e w w1 -> steps e w1 w2 -> (forall mi, mlive w mi -> mlive w2 mi) ->
  (forall mi, mlive w mi -> mlive w1 mi) .
Proof.
  intros C S S' L mi Hl. eapply mlive_steps; [exact S'| |auto]. destruct (mlive_mgr e w mi C Hl) as [m Hm].
  destruct (steps_like _ _ _ _ _ S Hm) as (m' & Hm' & _). apply nth_error_Some. congruence.
Qed.

Lemma drop_list_spec e page ids gs extra : forall l w,
  good e page ids w gs extra -> (forall h, In h (sources_handles l) -> ~ In h (extra ++ owned gs)) ->
  let w' := drop_list e l w in
  good e page ids w' gs extra /\ steps e w w' /\ w_handles w' = w_handles w /\ w_draws w' = w_draws w
  /\ List.length (w_mhandles w') = List.length (w_mhandles w)
  /\ (forall j, handle_of (w_mhandles w') j = if existsb (Nat.eqb j) (sources_handles l) then None else handle_of (w_mhandles w) j)
  /\ ((forall mi, mlive w mi -> mlive w' mi) -> same_styles w w').
Proof.
  induction l as [|o l IH]; intros w G N; cbn [drop_list fold_left].
  - cbn. split; auto. split; [apply steps_refl|]. repeat split; auto.
  - set (w1 := match o with Some src => drop_source e src w | None => w end).
    assert (A : good e page ids w1 gs extra /\ steps e w w1 /\ w_handles w1 = w_handles w /\ w_draws w1 = w_draws w
      /\ List.length (w_mhandles w1) = List.length (w_mhandles w)
      /\ (forall j, handle_of (w_mhandles w1) j = if existsb (Nat.eqb j) (sources_handles [o]) then None else handle_of (w_mhandles w) j)
      /\ ((forall mi, mlive w mi -> mlive w1 mi) -> same_styles w w1)).
    { subst w1. destruct o as [src|].
      - destruct (drop_source_frame e w src (good_cored _ _ _ _ _ _ G)) as (D1 & D2 & D3 & D4 & D5). cbv zeta in *.
        assert (Gs : good e page ids (drop_source e src w) gs extra /\ steps e w (drop_source e src w)).
        { unfold drop_source. destruct (s_manager src) as [h|] eqn:Es; [|split; [exact G|apply steps_refl]].
          split; [|apply steps_one; tm]. apply good_step; auto; [discriminate|]. intros h' E. injection E as <-. apply N.
          cbn. unfold source_handles. rewrite Es. now left. }
        destruct Gs as [Gs Ss]. split; auto. split; auto. split; auto. split; auto. split; auto. split; auto.
        intros j. rewrite D4. cbn. rewrite app_nil_r. replace (existsb (fun h => Nat.eqb h j) (source_handles src)) with (existsb (Nat.eqb j) (source_handles src)); auto.
        clear. induction (source_handles src) as [|a l IH]; cbn; auto. now rewrite IH, Nat.eqb_sym.
      - cbn. split; auto. split; [apply steps_refl|]. repeat split; auto. }
    destruct A as (A1 & A2 & A3 & A4 & A5 & A6 & A7).
    destruct (IH w1 A1) as (B1 & B2 & B3 & B4 & B5 & B6 & B7).
    { intros h I. apply N. cbn. apply in_or_app. now right. }
    cbv zeta in *. change (fold_left _ l w1) with (drop_list e l w1) in *.
    split; auto. split; [eapply steps_trans; eauto|]. split; [congruence|]. split; [congruence|]. split; [congruence|]. split.
    + intros j. rewrite B6, A6. cbn. rewrite app_nil_r, existsb_app.
      change (flat_map (fun o => match o with Some src => source_handles src | None => [] end) l) with (sources_handles l).
      destruct (existsb (Nat.eqb j) (sources_handles l)); [now rewrite orb_true_r|now rewrite orb_false_r].
    + intros L. pose proof (steps_same _ _ _ _ (good_cored _ _ _ _ _ _ G) A2 B2 L) as L1.
      specialize (A7 L1). assert (L2 : forall mi, mlive w1 mi -> mlive (drop_list e l w1) mi).
      { intros mi Hl. apply L. destruct Hl as [h Hh]. exists h. rewrite A6 in Hh. destruct (existsb _ _); [discriminate|exact Hh]. }
      eapply same_styles_trans; [exact A7|exact (B7 L2)].
Qed.

Lemma sources_handles_rev l h : In h (sources_handles (rev l)) <-> In h (sources_handles l).
Proof. unfold sources_handles. rewrite !in_flat_map. split; intros (o & I & J); exists o; split; auto; now apply in_rev in I || apply in_rev; rewrite ?rev_involutive. Qed.

Lemma leave_spec e page ids mi made f :
  fgood e page ids mi made f ->
  let w := a_world (p_app (f_prog f)) in
  let w' := a_world (p_app (leave e f)) in
  pgood e page ids (leave e f) /\ a_globals (p_app (leave e f)) = a_globals (p_app (f_prog f))
  /\ a_default (p_app (leave e f)) = a_default (p_app (f_prog f))
  /\ steps e w w' /\ w_handles w' = w_handles w /\ w_draws w' = w_draws w
  /\ (forall j, In j (frame_handles f) -> handle_of (w_mhandles w') j = None)
  /\ (forall j, ~ In j (frame_handles f) -> handle_of (w_mhandles w') j = handle_of (w_mhandles w) j)
  /\ ((forall mi, mlive w mi -> mlive w' mi) -> same_styles w w').
Proof.
  intros [P Nd Lv Mk] w w'. pose proof P as (K & G & D). unfold app_good in G.
  assert (N : forall h, In h (sources_handles (rev (f_sources f))) -> ~ In h (dflt (p_app (f_prog f)) ++ owned (guards (p_app (f_prog f))))).
  { intros h I. rewrite sources_handles_rev in I. rewrite <- app_owned. apply Lv. now right. }
  destruct (drop_list_spec e page ids _ _ _ _ G N) as (A1 & A2 & A3 & A4 & A5 & A6 & A7). cbv zeta in *.
  change (drop_list e (rev (f_sources f)) (a_world (p_app (f_prog f)))) with (drop_sources e (f_sources f) w) in *.
  destruct (drop_frame e _ (f_manager f) (good_cored _ _ _ _ _ _ A1)) as (B1 & B2 & B3 & B4 & B5). cbv zeta in *.
  set (w1 := drop_sources e (f_sources f) w) in *.
  assert (Ew : w' = fst (step e w1 (ODropManager (f_manager f)))) by reflexivity.
  assert (S2 : steps e w1 w') by (rewrite Ew; apply steps_one; tm).
  assert (S : steps e w w') by (eapply steps_trans; eauto).
  assert (G2 : app_good e page ids (p_app (leave e f))).
  { unfold app_good. change (guards (p_app (leave e f))) with (guards (p_app (f_prog f))). change (dflt (p_app (leave e f))) with (dflt (p_app (f_prog f))).
    change (a_world (p_app (leave e f))) with w'. rewrite Ew. apply good_step; auto; [discriminate|]. intros h E. injection E as <-.
    rewrite <- app_owned. apply Lv. now left. }
  split; [|split; [reflexivity|split; [reflexivity|split; [exact S|]]]].
  { change (leave e f) with (mk_prog (p_app (leave e f)) (p_cache (f_prog f))). apply pgood_world; auto. }
  split; [exact (eq_trans B1 A3)|]. split; [exact (eq_trans B2 A4)|].
  assert (Hj : forall j, handle_of (w_mhandles w') j = if Nat.eqb (f_manager f) j || existsb (Nat.eqb j) (sources_handles (rev (f_sources f))) then None else handle_of (w_mhandles w) j).
  { intros j. transitivity (if Nat.eqb (f_manager f) j then None else handle_of (w_mhandles w1) j); [exact (B4 j)|]. rewrite A6. destruct (Nat.eqb (f_manager f) j); auto. }
  split; [|split].
  - intros j I. rewrite Hj. destruct I as [<-|I]; [now rewrite Nat.eqb_refl|]. apply sources_handles_rev in I.
    replace (existsb (Nat.eqb j) (sources_handles (rev (f_sources f)))) with true; [now rewrite orb_true_r|].
    symmetry. apply existsb_exists. exists j. split; auto. apply Nat.eqb_refl.
  - intros j I. rewrite Hj. destruct (Nat.eqb_spec (f_manager f) j) as [X|X]; [elim I; now left|]. cbn.
    destruct (existsb _ _) eqn:E; auto. apply existsb_exists in E. destruct E as (h & Ih & E). apply Nat.eqb_eq in E. subst h. elim I. right. now apply sources_handles_rev.
  - intros L. pose proof (steps_same _ _ _ _ (good_cored _ _ _ _ _ _ G) A2 S2 L) as L1. specialize (A7 L1).
    assert (L2 : forall mj, mlive w1 mj -> mlive w' mj).
    { intros mj [h Hh]. apply L. exists h. rewrite A6 in Hh. destruct (existsb _ _); [discriminate|exact Hh]. }
    eapply same_styles_trans; [exact A7|]. exact (B5 L2).
Qed.

(** ** One rendering *)

Lemma frame_starts e page ids ctx p a h :
  pgood e page ids p -> context_manager e ctx (p_app p) = Some (a, h) ->
  exists mi, context_is (p_app p) a ctx mi /\ fgood e page ids mi [] (mk_frame (mk_prog a (p_cache p)) h [] [] []).
Proof.
  intros P C. destruct (steps_context _ _ _ _ _ C) as (_ & _ & mi & Cx & Hh). exists mi. split; auto.
  pose proof P as (K & G & D). pose proof (good_context _ _ _ _ _ _ _ G C) as [G1 _].
  split; cbn [f_prog f_manager f_sources p_app].
  - eapply pgood_context; eauto.
  - repeat constructor. intros [].
  - intros j [<-|[]]. split; auto. rewrite app_owned. pose proof (gd_owned _ _ _ _ _ _ G1) as N. cbn [List.app] in N. now inversion N.
  - constructor.
Qed.

Lemma render_good y e page ids ctx body p p1 cls pas :
  pgood e page ids p -> render_component y e ctx body p = Some (p1, cls, pas) ->
  pgood e page (ids ++ bloaded body) p1
  /\ (existsb bunregisters body = false ->
      steps e (a_world (p_app p)) (a_world (p_app p1))
      /\ (forall d, a_default (p_app p) = Some d -> a_default (p_app p1) = Some d)
      /\ exists mi, context_is (p_app p) (p_app p1) ctx mi
          /\ (mlive (a_world (p_app p1)) mi -> Forall2 (classes_in (a_world (p_app p1)) mi) (asks [] body) cls)).
Proof.
  intros P H. unfold render_component in H. destruct (context_manager e ctx (p_app p)) as [[a h]|] eqn:C; [|discriminate].
  destruct (frame_starts _ _ _ _ _ _ _ P C) as (mi & Cx & F).
  destruct (brun y e _ body) as [f|] eqn:B; [|discriminate]. injection H as <- <- <-.
  destruct (brun_good _ _ _ _ _ _ _ _ _ F B) as (F1 & Em & S). cbn [f_manager] in Em.
  destruct (leave_spec _ _ _ _ _ _ F1) as (L1 & L2 & L3 & L4 & _ & _ & _ & L8 & _). cbv zeta in *.
  split; auto. intros U. destruct (S U) as (S1 & D1 & l & C1 & Fa). cbn [f_prog p_app f_classes List.app] in *.
  destruct (steps_context _ _ _ _ _ C) as (S0 & D0 & _).
  split; [eapply steps_trans; [exact S0|eapply steps_trans; eauto]|]. split; [intros d Hd; rewrite L3; auto|].
  exists mi. split.
  - destruct ctx as [c|]; [exact Cx|]. destruct Cx as (d & Ed & Hd). cbn [context_is]. exists d.
    assert (Ed1 : a_default (p_app (f_prog f)) = Some d) by auto. split; [rewrite L3; exact Ed1|].
    pose proof L1 as (_ & Gl & _). pose proof (gd_live _ _ _ _ _ _ Gl) as Lv. unfold dflt in Lv. rewrite L3, Ed1 in Lv. apply Forall_inv in Lv. destruct Lv as [mj Hj].
    pose proof (steps_trans _ _ _ _ S1 L4) as S2.
    pose proof (passes_steps _ _ _ S2) as [_ Ps]. pose proof (handle_nth _ _ _ Hd) as X.
    destruct (Ps d) as [Y|Y]; [apply nth_error_Some; congruence| |]; unfold handle_of in *; rewrite Y in *; [now rewrite X|discriminate].
  - intros Lv. rewrite C1. pose proof (fg_prog _ _ _ _ _ _ F1) as (_ & Ga & _).
    eapply Forall2_weaken; [|exact Fa]. cbn. intros x cl Ci. eapply classes_in_steps; [exact L4|exact (good_cored _ _ _ _ _ _ Ga)|exact Ci|exact Lv].
Qed.

Lemma pgood_cstep y e page ids p o p1 :
  pgood e page ids p -> cstep y e p o = Some p1 -> pgood e page (ids ++ cloaded [o]) p1.
Proof.
  intros P H. destruct o as [o|ctx body]; cbn [cstep] in H.
  - replace (cloaded [CDo o]) with (ploaded [o]) by (unfold cloaded; cbn [flat_map]; symmetry; apply app_nil_r). eapply pgood_pstep; eauto.
  - destruct (render_component y e ctx body p) as [[[p2 cls] pas]|] eqn:R; [|discriminate]. injection H as <-.
    unfold cloaded. cbn [flat_map]. rewrite app_nil_r. eapply render_good; eauto.
Qed.
Lemma pgood_crun y e page : forall l ids p p1,
  pgood e page ids p -> crun y e p l = Some p1 -> pgood e page (ids ++ cloaded l) p1.
Proof.
  induction l as [|o l IH]; intros ids p p1 P H; cbn [crun] in H; [injection H as <-; now rewrite app_nil_r|].
  destruct (cstep y e p o) as [p2|] eqn:S; [|discriminate]. apply (pgood_cstep _ _ _ _ _ _ _ P) in S. apply (IH _ _ _ S) in H.
  unfold cloaded in *. cbn [flat_map] in *. now rewrite app_nil_r, <- app_assoc in H.
Qed.
Lemma pgood_creached y e page l p : crun y e (prog_start page) l = Some p -> pgood e page (cloaded l) p.
Proof. intros H. now apply (pgood_crun _ _ _ _ _ _ _ (pgood_start e page)) in H. Qed.
Lemma steps_crun y e page : forall l ids p p1,
  pgood e page ids p -> crun y e p l = Some p1 -> existsb cunregisters l = false ->
  steps e (a_world (p_app p)) (a_world (p_app p1))
  /\ forall d, a_default (p_app p) = Some d -> a_default (p_app p1) = Some d.
Proof.
  induction l as [|o l IH]; intros ids p p1 P H U; cbn [crun existsb] in *; [injection H as <-; split; [apply steps_refl|auto]|].
  apply orb_false_iff in U. destruct U as [U1 U2]. destruct (cstep y e p o) as [p2|] eqn:S; [|discriminate].
  pose proof (pgood_cstep _ _ _ _ _ _ _ P S) as P2. destruct (IH _ _ _ P2 H U2) as [S2 D2].
  assert (A : steps e (a_world (p_app p)) (a_world (p_app p2)) /\ forall d, a_default (p_app p) = Some d -> a_default (p_app p2) = Some d).
  { destruct o as [o|ctx body]; cbn [cstep cunregisters] in *; [eapply steps_pstep; eauto|].
    destruct (render_component y e ctx body p) as [[[p3 cls] pas]|] eqn:R; [|discriminate]. injection S as <-.
    destruct (proj2 (render_good _ _ _ _ _ _ _ _ _ _ P R) U1) as (A & B & _). auto. }
  destruct A as [S1 D1]. split; [eapply steps_trans; eauto|auto].
Qed.

(** ** Functions that only use [css!] *)

Lemma tied_steps e w w' mi m :
  steps e w w' -> nth_error (w_mgrs w) mi = Some m -> exists m', nth_error (w_mgrs w') mi = Some m' /\ tied m m'.
Proof.
  intros S. revert m. induction S as [|w o w' Tm S IH]; [intros m H; exists m; auto using tied_refl|]. intros m H.
  destruct (step_tied e w o mi m H) as (d & Hd & B). destruct (IH _ Hd) as (d' & Hd' & B'). exists d'. split; auto. eapply tied_trans; eauto.
Qed.
Lemma settles_steps e page w w' mi m :
  steps e w w' -> nth_error (w_mgrs w) mi = Some m -> settles e page m ->
  exists m', nth_error (w_mgrs w') mi = Some m' /\ m_prefix m' = m_prefix m /\ settles e page m'.
Proof.
  intros S H St. destruct (steps_like _ _ _ _ _ S H) as (m' & H1 & E1 & E2 & _). destruct (tied_steps _ _ _ _ _ S H) as (m2 & H2 & T1 & T2).
  rewrite H1 in H2. injection H2 as <-. exists m'. split; auto. split; auto. unfold settles in *. rewrite E2, T2.
  destruct St as [A|[A|A]]; [left; tauto|now right; left|now right; right].
Qed.
Lemma registered_fun e w mi k c c' : cored e w -> registered w mi k c -> registered w mi k c' -> c = c'.
Proof.
  intros C (m & Hm & I) (m' & Hm' & I'). rewrite Hm in Hm'. injection Hm' as <-.
  destruct C as [ids C]. destruct (o_reg _ _ _ _ C _ _ Hm) as (Nd & _).
  apply (reg_get_complete _ _ _ Nd) in I, I'. congruence.
Qed.
Lemma classes_in_fun e w mi x cl cl' : cored e w -> classes_in w mi x cl -> classes_in w mi x cl' -> cl = cl'.
Proof.
  intros C (m & cid & c & Hm & R & Hc & ->) (m' & cid' & c' & Hm' & R' & Hc' & ->). rewrite Hm in Hm'. injection Hm' as <-.
  rewrite (registered_fun _ _ _ _ _ _ C R R') in Hc. congruence.
Qed.

Definition passed_handles (f : frame) : list nat := flat_map source_handles (f_passed f).
Definition is_there (o : option source) : bool := match o with Some _ => true | None => false end.
Record plain (w0 : world) (mi : nat) (f : frame) : Prop := mk_plain
  { pl_len : List.length (w_mhandles w0) <= List.length (w_mhandles (a_world (p_app (f_prog f))));
    pl_old : forall j, j < List.length (w_mhandles w0) ->
      handle_of (w_mhandles (a_world (p_app (f_prog f)))) j = handle_of (w_mhandles w0) j;
    pl_new : forall j mj, List.length (w_mhandles w0) <= j -> handle_of (w_mhandles (a_world (p_app (f_prog f)))) j = Some mj ->
      In j (sources_handles (f_sources f) ++ passed_handles f);
    pl_fresh : forall j, In j (sources_handles (f_sources f) ++ passed_handles f) ->
      List.length (w_mhandles w0) <= j /\ handle_of (w_mhandles (a_world (p_app (f_prog f)))) j = Some mi;
    pl_nodup : NoDup (sources_handles (f_sources f) ++ passed_handles f);
    pl_handles : exists n, w_handles (a_world (p_app (f_prog f))) = w_handles w0 ++ repeat None n }.

Definition handed (made : list (option str * sheet)) (o : bop) : list (option str * sheet) :=
  match o with BPass i => match nth_error made i with Some x => [x] | None => [] end | _ => [] end.
Lemma hands_cons made o b : hands made (o :: b) = handed made o ++ hands (made ++ makes o) b.
Proof. destruct o; cbn; rewrite ?app_nil_r; reflexivity. Qed.

Lemma map_upd {A B} (g : A -> B) l i f f' : (forall a, g (f a) = f' (g a)) -> map g (upd l i f) = upd (map g l) i f'.
Proof. intros K. revert i. induction l as [|a l IH]; intros [|i]; cbn; auto; f_equal; auto. Qed.

Definition source_from (x : option str * sheet) (src : source) : Prop :=
  s_sheet src = snd x /\ s_location src = fst x /\ s_manager src <> None.

Lemma plain_bstep y e page ids w0 mi m0 made f o body f1 :
  fgood e page ids mi made f -> plain w0 mi f -> steps e w0 (a_world (p_app (f_prog f))) -> nth_error (w_mgrs w0) mi = Some m0 ->
  f_manager f < List.length (w_mhandles w0) ->
  plain_body (map is_there (f_sources f)) (o :: body) -> bstep y e f o = Some f1 ->
  plain w0 mi f1 /\ plain_body (map is_there (f_sources f1)) body
  /\ p_cache (f_prog f1) = p_cache (f_prog f)
  /\ a_globals (p_app (f_prog f1)) = a_globals (p_app (f_prog f)) /\ a_default (p_app (f_prog f1)) = a_default (p_app (f_prog f))
  /\ (exists l, f_passed f1 = f_passed f ++ l /\ Forall2 source_from (handed made o) l)
  /\ ((forall x, In x (asked made o) -> exists cid, registered (a_world (p_app (f_prog f))) mi (mk_key false (m_prefix m0) (snd x)) cid) ->
      w_draws (a_world (p_app (f_prog f1))) = w_draws (a_world (p_app (f_prog f)))
      /\ nothing_new (a_world (p_app (f_prog f))) (a_world (p_app (f_prog f1)))).
Proof.
  intros [P Nd Lv Mk] [L1 L2 L3 L4 L5 [n L6]] S0 Hm0 Lm Pb H. pose proof P as (K & G & D).
  destruct o as [loc s|i|i|o]; cbn [plain_body] in Pb; cbn [bstep] in H; [| | |contradiction].
  - destruct (step e (a_world (p_app (f_prog f))) (OCloneManager (f_manager f))) as [w [h| | | | |]] eqn:S; try discriminate.
    cbv beta iota delta [with_manager from_sheet drop_source s_manager s_sheet s_location] in H. injection H as <-.
    destruct (clone_frame _ _ _ _ _ S) as (F1 & F2 & F3 & F4 & mj & F5 & F6).
    destruct (Lv (f_manager f)) as [Lmm Om]; [now left|]. rewrite Lmm in F5. injection F5 as <-.
    cbn [f_prog f_sources f_passed p_app p_cache a_globals a_default a_world with_world handed asked].
    split; [|split; [now rewrite map_app|split; [reflexivity|split; [reflexivity|split; [reflexivity|split]]]]].
    + unfold passed_handles. split; cbn [f_prog f_sources f_passed p_app a_world with_world]; rewrite ?F1, ?F6.
      * rewrite app_length. cbn. lia.
      * intros j Lj. unfold handle_of in *. rewrite nth_error_app1 by lia. apply L2; auto.
      * intros j mj Lj Hj. rewrite sources_handles_app, <- app_assoc. cbn [sources_handles flat_map source_handles s_manager List.app].
        destruct (Nat.eq_dec j h) as [->|Nj]; [apply in_or_app; right; now left|].
        assert (Hj' : handle_of (w_mhandles (a_world (p_app (f_prog f)))) j = Some mj).
        { pose proof (handle_lt _ _ _ Hj) as X. rewrite app_length in X. cbn in X. unfold handle_of in *. rewrite nth_error_app1 in Hj by lia. exact Hj. }
        specialize (L3 _ _ Lj Hj'). unfold passed_handles in L3. rewrite in_app_iff in *. cbn. tauto.
      * intros j I. rewrite sources_handles_app, <- app_assoc in I. cbn [sources_handles flat_map source_handles s_manager List.app] in I.
        assert (J : j = h \/ In j (sources_handles (f_sources f) ++ passed_handles f)) by (unfold passed_handles; rewrite in_app_iff in *; cbn in I; intuition).
        destruct J as [->|J].
        -- split; [lia|]. subst h. unfold handle_of. now rewrite nth_app_new.
        -- destruct (L4 j J) as [A B]. split; auto. pose proof (handle_lt _ _ _ B). unfold handle_of in *. rewrite nth_error_app1; auto.
      * rewrite sources_handles_app, <- app_assoc. cbn [sources_handles flat_map source_handles s_manager List.app].
        apply (Permutation_NoDup (Permutation_middle _ _ h)). constructor; auto. intros I. destruct (L4 h I) as [_ B]. apply handle_lt in B. lia.
      * exists n. exact L6.
    + exists []. split; [now rewrite app_nil_r|constructor].
    + intros _. split; [exact F2|]. now apply nothing_new_same.
  - destruct (nth_error (f_sources f) i) as [[src|]|] eqn:Ei; try discriminate.
    destruct (into_classes e src (p_app (f_prog f))) as [[a1 cl]|] eqn:Ic; [|discriminate]. injection H as <-.
    destruct (Forall2_nth_r _ _ _ _ _ Mk Ei) as ([loc s] & Em & E1 & E2 & E3). cbn [fst snd] in *.
    destruct (s_manager src) as [h|] eqn:Es; [|easy]. clear E3.
    destruct (sources_handles_take _ _ _ Ei) as (l1 & l2 & Q1 & Q2). unfold source_handles in Q1. rewrite Es in Q1. cbn [List.app] in Q1.
    assert (Ih : In h (frame_handles f)) by (unfold frame_handles; rewrite Q1; right; apply in_or_app; right; now left).
    destruct (Lv h Ih) as [Hh Oh].
    destruct (steps_like _ _ _ _ _ S0 Hm0) as (m & Hm & Ep & _).
    destruct (classes_spec e page ids src h (p_app (f_prog f)) mi m G Es Oh Hh Hm) as [_ Sp].
    destruct (Sp _ _ Ic) as (G1 & Eg & Ed & St & Lh & [T1 T2] & Hs & _ & Ru). clear Sp.
    cbn [f_prog f_sources f_passed p_app p_cache handed asked].
    destruct Pb as [Pb1 Pb2].
    assert (Lhh : List.length (w_mhandles w0) <= h) by (apply L4; rewrite Q1, <- app_assoc; apply in_or_app; right; now left).
    rewrite Q1, <- app_assoc in L5. cbn [List.app] in L5. apply NoDup_remove in L5. destruct L5 as [L5 L5'].
    split; [|split; [|split; [reflexivity|split; [exact Eg|split; [exact Ed|split]]]]].
    + unfold passed_handles in *. split; cbn [f_prog f_sources f_passed p_app]; rewrite ?Lh, ?Q2; auto.
      * intros j Lj. rewrite T2; auto. intros [<-|[]]. lia.
      * intros j mj Lj Hj. assert (Nj : j <> h) by (intros ->; rewrite T1 in Hj by (now left); discriminate).
        rewrite T2 in Hj by (intros [X|[]]; congruence). specialize (L3 _ _ Lj Hj). rewrite Q1 in L3. rewrite !in_app_iff in *. cbn [In] in L3. intuition congruence.
      * intros j I. assert (Nj : j <> h) by (intros ->; apply L5'; now rewrite app_assoc).
        rewrite T2 by (intros [X|[]]; congruence). apply L4. rewrite Q1. rewrite !in_app_iff in *. cbn. intuition.
      * now rewrite <- app_assoc.
      * exists (S n). rewrite Hs, L6, <- app_assoc. f_equal. clear. induction n as [|n IH]; cbn; [reflexivity|]. f_equal. exact IH.
    + rewrite (map_upd is_there _ _ _ (fun _ => false)) by reflexivity. exact Pb2.
    + exists []. split; [now rewrite app_nil_r|constructor].
    + intros A. rewrite Em in A. destruct (A (loc, s)) as [cid R]; [now left|]. cbn [snd] in R.
      assert (Ek : mk_key false (m_prefix m0) s = style_key (m_prefix m) (s_sheet src)) by (now rewrite E1, <- Ep). rewrite Ek in R.
      destruct (Ru _ R) as [Rd Rn]. split; [exact Rd|]. apply Rn. intros mj [j Hj]. destruct (Nat.eq_dec j h) as [->|Nj].
      * rewrite Hh in Hj. injection Hj as <-. exists (f_manager f). rewrite T2; [apply Lv; now left|]. intros [X|[]]. subst h. lia.
      * exists j. rewrite T2; auto. intros [X|[]]. congruence.
  - destruct (nth_error (f_sources f) i) as [[src|]|] eqn:Ei; try discriminate. injection H as <-.
    destruct (Forall2_nth_r _ _ _ _ _ Mk Ei) as (x & Em & E1 & E2 & E3).
    destruct (sources_handles_take _ _ _ Ei) as (l1 & l2 & Q1 & Q2). destruct Pb as [Pb1 Pb2].
    cbn [f_prog f_sources f_passed handed asked].
    split; [|split; [|split; [reflexivity|split; [reflexivity|split; [reflexivity|split]]]]].
    + assert (Pm : Permutation (sources_handles (f_sources f) ++ passed_handles f)
                     ((l1 ++ l2) ++ flat_map source_handles (f_passed f ++ [src]))).
      { rewrite Q1, flat_map_app. cbn [flat_map]. rewrite app_nil_r. fold (passed_handles f).
        rewrite <- !app_assoc. apply Permutation_app_head. rewrite (app_assoc l2). apply Permutation_app_comm. }
      unfold passed_handles. split; cbn [f_prog f_sources f_passed]; rewrite ?Q2; auto.
      * intros j mj A B. eapply Permutation_in; [exact Pm|eauto].
      * intros j A. apply L4. eapply Permutation_in; [apply Permutation_sym; exact Pm|exact A].
      * eapply Permutation_NoDup; eauto.
      * now exists n.
    + rewrite (map_upd is_there _ _ _ (fun _ => false)) by reflexivity. exact Pb2.
    + exists [src]. split; auto. rewrite Em. constructor; [|constructor]. now split.
    + intros _. split; [reflexivity|]. repeat split; auto.
Qed.

(** The whole function. *)
Lemma plain_brun y e page w0 mi m0 : forall body ids made f f1,
  fgood e page ids mi made f -> plain w0 mi f -> steps e w0 (a_world (p_app (f_prog f))) -> nth_error (w_mgrs w0) mi = Some m0 ->
  f_manager f < List.length (w_mhandles w0) ->
  plain_body (map is_there (f_sources f)) body -> brun y e f body = Some f1 ->
  plain w0 mi f1 /\ p_cache (f_prog f1) = p_cache (f_prog f)
  /\ a_globals (p_app (f_prog f1)) = a_globals (p_app (f_prog f)) /\ a_default (p_app (f_prog f1)) = a_default (p_app (f_prog f))
  /\ (exists l, f_passed f1 = f_passed f ++ l /\ Forall2 source_from (hands made body) l)
  /\ ((forall x, In x (asks made body) -> exists cid, registered (a_world (p_app (f_prog f))) mi (mk_key false (m_prefix m0) (snd x)) cid) ->
      w_draws (a_world (p_app (f_prog f1))) = w_draws (a_world (p_app (f_prog f)))
      /\ nothing_new (a_world (p_app (f_prog f))) (a_world (p_app (f_prog f1)))).
Proof.
  induction body as [|o body IH]; intros ids made f f1 G Pl S0 Hm0 Lm Pb H; cbn [brun] in H.
  - injection H as <-. split; auto. split; auto. split; auto. split; auto. split; [exists []; split; [now rewrite app_nil_r|constructor]|].
    intros _. split; auto. repeat split; auto.
  - destruct (bstep y e f o) as [f2|] eqn:B; [|discriminate].
    destruct (plain_bstep _ _ _ _ _ _ _ _ _ _ _ _ G Pl S0 Hm0 Lm Pb B) as (P2 & Pb2 & Ek2 & Eg2 & Ed2 & (l2 & Ep2 & F2) & R2).
    destruct (bstep_good _ _ _ _ _ _ _ _ _ G B) as (G2 & M2 & S2 & _).
    assert (U : bunregisters o = false) by (destruct o; auto; destruct Pb). destruct (S2 U) as [St2 _].
    destruct (IH _ _ _ _ G2 P2 (steps_trans _ _ _ _ S0 St2) Hm0 ltac:(rewrite M2; exact Lm) Pb2 H) as (P1 & Ek1 & Eg1 & Ed1 & (l1 & Ep1 & F1) & R1).
    split; auto. split; [congruence|]. split; [congruence|]. split; [congruence|]. split.
    + exists (l2 ++ l1). rewrite Ep1, Ep2, <- app_assoc. split; auto. rewrite hands_cons. now apply Forall2_app.
    + rewrite asks_cons. intros A. destruct R2 as [D2 N2]; [intros x I; apply A, in_or_app; now left|].
      destruct R1 as [D1 N1].
      { intros x I. destruct (A x) as [cid R]; [apply in_or_app; now right|]. exists cid. now apply N2. }
      split; [congruence|]. eapply nothing_new_trans; eauto.
Qed.

Lemma plain_progress y e page w0 mi m0 : forall body ids made f,
  fgood e page ids mi made f -> steps e w0 (a_world (p_app (f_prog f))) -> nth_error (w_mgrs w0) mi = Some m0 ->
  settles e page m0 -> (forall x, In x (asks made body) -> rereads e (mk_key false (m_prefix m0) (snd x))) ->
  plain_body (map is_there (f_sources f)) body -> exists f1, brun y e f body = Some f1.
Proof.
  induction body as [|o body IH]; intros ids made f G S0 Hm0 St Rr Pb; cbn [brun]; [eauto|].
  assert (Z : exists f2, bstep y e f o = Some f2).
  { destruct G as [P Nd Lv Mk]. destruct o as [loc s|i|i|o]; cbn [plain_body] in Pb; cbn [bstep]; [| | |contradiction].
    - destruct (Lv (f_manager f)) as [Lm _]; [now left|]. cbn [step]. unfold clone_manager. rewrite Lm. cbn. eauto.
    - destruct Pb as [Pb _]. rewrite nth_error_map in Pb. destruct (nth_error (f_sources f) i) as [[src|]|] eqn:Ei; try discriminate.
      destruct (Forall2_nth_r _ _ _ _ _ Mk Ei) as (x & Em & E1 & E2 & E3). destruct (s_manager src) as [h|] eqn:Es; [|easy]. clear E3.
      destruct (sources_handles_take _ _ _ Ei) as (l1 & l2 & Q1 & Q2). unfold source_handles in Q1. rewrite Es in Q1. cbn [List.app] in Q1.
      assert (Ih : In h (frame_handles f)) by (unfold frame_handles; rewrite Q1; right; apply in_or_app; right; now left).
      destruct (Lv h Ih) as [Hh Oh]. pose proof P as (K & Ga & D).
      destruct (settles_steps _ _ _ _ _ _ S0 Hm0 St) as (m & Hm & Ep & Sm).
      destruct (classes_spec e page ids src h (p_app (f_prog f)) mi m Ga Es Oh Hh Hm) as [Su _].
      destruct Su as (a1 & cl & ->); auto; [|eauto]. specialize (Rr x). rewrite asks_cons in Rr. cbn [asked] in Rr. rewrite Em in Rr.
      specialize (Rr (or_introl eq_refl)). unfold style_key. now rewrite Ep, E1.
    - destruct Pb as [Pb _]. rewrite nth_error_map in Pb. destruct (nth_error (f_sources f) i) as [[src|]|] eqn:Ei; try discriminate. eauto. }
  destruct Z as [f2 B]. rewrite B. destruct (bstep_good _ _ _ _ _ _ _ _ _ G B) as (G2 & M2 & S2 & _).
  assert (U : bunregisters o = false) by (destruct o; auto; destruct Pb). destruct (S2 U) as [St2 _].
  assert (Pb2 : plain_body (map is_there (f_sources f2)) body).
  { destruct o as [loc s|i|i|o]; cbn [plain_body] in Pb; cbn [bstep] in B; [| | |contradiction].
    - destruct (step e _ (OCloneManager (f_manager f))) as [w [h| | | | |]]; try discriminate. cbn in B. injection B as <-. cbn. now rewrite map_app.
    - destruct (nth_error (f_sources f) i) as [[src|]|]; try discriminate. destruct (into_classes _ _ _) as [[a1 cl]|]; [|discriminate]. injection B as <-.
      cbn. rewrite (map_upd is_there _ _ _ (fun _ => false)) by reflexivity. apply Pb.
    - destruct (nth_error (f_sources f) i) as [[src|]|]; try discriminate. injection B as <-.
      cbn. rewrite (map_upd is_there _ _ _ (fun _ => false)) by reflexivity. apply Pb. }
  apply (IH _ _ _ G2 (steps_trans _ _ _ _ S0 St2) Hm0 St); auto.
  intros x I. apply Rr. rewrite asks_cons. apply in_or_app. now right.
Qed.
