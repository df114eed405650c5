(** * ProviderFacts: what a hydrated provider leaves in its manager. *)

From Coq Require Import String Ascii List NArith Bool Arith Lia Permutation.
From Verif Require Import Str StrFacts Ast Render CssParser Ids Manager SpecManager
  ManagerFacts ManagerInv ManagerSteps ManagerCore ManagerProps Hydrate Hooks SpecHooks HookFacts
  HookOnly HookKeep Provider.
Import ListNotations.
Local Open Scope list_scope.
Local Opaque parse to_style_str.

(** ** Loading *)

Lemma load_one_spec e ids w mi m r w' :
  core e ids [] w -> nth_error (w_mgrs w) mi = Some m -> m_strong m >= 1 -> In (r_id r) ids ->
  load_one mi r w = Some w' ->
  core e ids [] w'
  /\ (exists m', nth_error (w_mgrs w') mi = Some m' /\ m_strong m' >= 1)
  /\ (forall k cid, registered w mi k cid -> registered w' mi k cid)
  /\ (forall cid c, nth_error (w_contents w) cid = Some c -> nth_error (w_contents w') cid = Some c)
  /\ (exists cid c, registered w' mi (r_key r) cid /\ nth_error (w_contents w') cid = Some c /\ c_id c = r_id r)
  /\ (forall cid c, nth_error (w_contents w') cid = Some c ->
        nth_error (w_contents w) cid = Some c
        \/ (c_id c = r_id r /\ c_key c = r_key r /\ registered w' mi (r_key r) cid)).
Proof.
  intros C Hm Hs Hi E. destruct (core_load_one _ _ _ _ _ _ _ C Hm Hs Hi E) as (C' & m' & Hm' & Hs').
  split; [exact C'|]. split; [eauto|]. unfold load_one in E. rewrite Hm in E.
  destruct (reg_get (m_reg m) (r_key r)) as [cid|] eqn:G.
  - apply reg_get_in in G. destruct (o_reg _ _ _ _ C _ _ Hm) as (_ & _ & K). destruct (K _ _ G) as (c & Hc & _ & _).
    rewrite Hc in E. destruct (str_eqb (c_id c) (r_id r)) eqn:S; [|discriminate]. injection E as <-. apply str_eqb_eq in S.
    split; auto. split; auto. split; auto. exists cid, c. split; [exists m; auto|auto].
  - injection E as <-. split; [|split; [|split]].
    + intros k cid (m0 & Hm0 & I). rewrite Hm in Hm0. injection Hm0 as <-. eexists. cbn. rewrite nth_upd_eq, Hm. split; [reflexivity|].
      cbn. apply in_app_iff. now left.
    + intros cid c Hc. cbn. now apply nth_app_old.
    + exists (List.length (w_contents w)). eexists. split; [|cbn; split; [apply nth_app_new|reflexivity]].
      eexists. cbn. rewrite nth_upd_eq, Hm. split; [reflexivity|]. cbn. apply in_app_iff. right. now left.
    + intros cid c Hc. cbn in Hc. destruct (Nat.lt_ge_cases cid (List.length (w_contents w))) as [L|L].
      * left. rewrite nth_error_app1 in Hc by exact L. exact Hc.
      * right. rewrite nth_error_app2 in Hc by exact L. destruct (cid - List.length (w_contents w)) as [|n] eqn:En; [|destruct n; discriminate Hc].
        cbn in Hc. injection Hc as <-. replace cid with (List.length (w_contents w)) by lia. cbn. split; auto. split; auto.
        eexists. cbn. rewrite nth_upd_eq, Hm. split; [reflexivity|]. cbn. apply in_app_iff. right. now left.
Qed.

Lemma load_data_spec e ids mi l : forall w m w1,
  core e ids [] w -> nth_error (w_mgrs w) mi = Some m -> m_strong m >= 1 ->
  (forall r, In r l -> In (r_id r) ids) -> load_data mi l w = (w1, RDone) ->
  (forall k cid, registered w mi k cid -> registered w1 mi k cid)
  /\ (forall cid c, nth_error (w_contents w) cid = Some c -> nth_error (w_contents w1) cid = Some c)
  /\ (forall r, In r l -> exists cid c, registered w1 mi (r_key r) cid /\ nth_error (w_contents w1) cid = Some c /\ c_id c = r_id r)
  /\ (forall cid c, nth_error (w_contents w1) cid = Some c ->
        nth_error (w_contents w) cid = Some c
        \/ exists r, In r l /\ c_id c = r_id r /\ c_key c = r_key r /\ registered w1 mi (r_key r) cid).
Proof.
  induction l as [|r l IH]; intros w m w1 C Hm Hs Hi E; cbn [load_data] in E.
  - injection E as <-. repeat split; auto. intros r [].
  - destruct (load_one mi r w) as [w0|] eqn:E0; [|discriminate].
    destruct (load_one_spec e ids w mi m r w0 C Hm Hs (Hi r (or_introl eq_refl)) E0) as (C0 & (m0 & Hm0 & Hs0) & A1 & A2 & (cid0 & c0 & A3 & A4 & A5) & A6).
    destruct (IH w0 m0 w1 C0 Hm0 Hs0 (fun r' I => Hi r' (or_intror I)) E) as (B1 & B2 & B3 & B4).
    split; [auto|]. split; [auto|]. split.
    + intros r' [<-|I]; [|now apply B3]. exists cid0, c0. auto.
    + intros cid c Hc. destruct (B4 _ _ Hc) as [H|(r' & I & H)]; [|right; exists r'; split; [now right|exact H]].
      destruct (A6 _ _ H) as [H'|(H1 & H2 & H3)]; [now left|]. right. exists r. split; [now left|]. auto.
Qed.

(** ** Programs that load nothing *)

Section Generic.
Variables (y : yew) (e : env) (Q : world -> Prop).
Hypothesis Qstep : forall w o, (forall h d, o <> OLoad h d) -> Q w -> Q (fst (step e w o)).

Lemma Qres w o w' r : (forall h d, o <> OLoad h d) -> Q w -> step e w o = (w', r) -> Q w'.
Proof. intros N H E. apply (Qstep _ _ N) in H. now rewrite E in H. Qed.
Ltac q := intros ? ?; discriminate.

Lemma Q_clone w h w' h' : Q w -> clone_handle e h w = Some (w', h') -> Q w'.
Proof.
  intros H E. unfold clone_handle in E. destruct (step e w (OCloneManager h)) as [w1 [x| | | | |]] eqn:S; try discriminate.
  injection E as <- _. eapply Qres; [|exact H|exact S]. q.
Qed.
Lemma Q_default a a1 h : Q (a_world a) -> default_manager e a = Some (a1, h) -> Q (a_world a1).
Proof.
  intros H E. unfold default_manager in E. destruct (a_default a) as [d|].
  - destruct (step e (a_world a) (OCloneManager d)) as [w [h'| | | | |]] eqn:S; try discriminate. injection E as <- <-.
    eapply Qres; [|exact H|exact S]. q.
  - destruct (step e (a_world a) (OBuild _ None true false)) as [w [h0| | | | |]] eqn:S0; try discriminate.
    destruct (step e w (OCloneManager h0)) as [w1 [h'| | | | |]] eqn:S1; try discriminate. injection E as <- <-.
    eapply Qres; [|eapply Qres; [|exact H|exact S0]|exact S1]; q.
Qed.
Lemma Q_context ctx a a1 h : Q (a_world a) -> context_manager e ctx a = Some (a1, h) -> Q (a_world a1).
Proof.
  intros H E. destruct ctx as [d|]; [|eapply Q_default; eauto]. cbn [context_manager] in E.
  destruct (step e (a_world a) (OCloneManager d)) as [w [h'| | | | |]] eqn:S; try discriminate. injection E as <- <-.
  eapply Qres; [|exact H|exact S]. q.
Qed.
Lemma Q_drop_source src w : Q w -> Q (drop_source e src w).
Proof. intros H. unfold drop_source. destruct (s_manager src); [|exact H]. apply (Qstep w (ODropManager n)); [q|exact H]. Qed.
Lemma Q_drop_guard g w : Q w -> Q (drop_guard y e g w).
Proof.
  assert (V : forall w, Q w -> Q (drop_value e g w)).
  { intros w0 H. unfold drop_value. apply (Qstep (fst (step e w0 (OUnregister (g_style g)))) (ODropStyle (g_style g))); [q|].
    apply (Qstep w0 (OUnregister (g_style g))); [q|exact H]. }
  assert (D : forall w, Q w -> Q (drop_deps e g w)).
  { intros w0 H. unfold drop_deps. apply Q_drop_source. apply (Qstep w0 (ODropManager (g_manager g))); [q|exact H]. }
  intros H. unfold drop_guard. destruct (y_key_first y); auto.
Qed.
Lemma Q_new_guard h src w w' g : Q w -> new_guard e h src w = Some (w', g) -> Q w'.
Proof.
  intros S H. unfold new_guard in H. destruct (manager_of w h); [|discriminate].
  destruct (step e w _) as [w1 [x| | | | |]] eqn:E; try discriminate. injection H as <- <-.
  eapply Qres; [|exact S|exact E]. q.
Qed.
Lemma Q_render old ctx src a a' g : Q (a_world a) -> render_global y e old ctx src a = Some (a', g) -> Q (a_world a').
Proof.
  intros S H. unfold render_global in H. destruct (context_manager e ctx a) as [[a1 h]|] eqn:E; [|discriminate].
  apply (Q_context _ _ _ _ S) in E.
  destruct (clone_source e src (a_world a1)) as [[w1 src1]|] eqn:C; [|discriminate].
  assert (S1 : Q w1).
  { unfold clone_source in C. destruct (s_manager src) as [d|]; [|now injection C as <- _].
    destruct (step e (a_world a1) (OCloneManager d)) as [w [h'| | | | |]] eqn:Ec; try discriminate. injection C as <- <-.
    eapply Qres; [|exact E|exact Ec]. q. }
  destruct (memo y e old h src1 w1) as [[w2 g1]|] eqn:M; [|discriminate]. injection H as <- <-. cbn [a_world with_world].
  unfold memo in M. destruct old as [g0|]; [|eapply Q_new_guard; eauto].
  destruct (_ && _).
  - injection M as <- <-. apply Q_drop_source. apply (Qstep w1 (ODropManager h)); [q|exact S1].
  - destruct (y_drop_first y).
    + eapply Q_new_guard; [|exact M]. now apply Q_drop_guard.
    + destruct (new_guard e h src1 w1) as [[w3 g3]|] eqn:N; [|discriminate]. injection M as <- <-.
      apply Q_drop_guard. eapply Q_new_guard; eauto.
Qed.
Lemma Q_new_style h s w w' r : Q w -> new_style e h s w = (w', r) -> Q w'.
Proof.
  intros S H. unfold new_style in H. destruct (manager_of w h); [|now injection H as <- _].
  eapply Qres; [|exact S|exact H]. q.
Qed.
Lemma Q_classes src a a' cl : Q (a_world a) -> into_classes e src a = Some (a', cl) -> Q (a_world a').
Proof.
  intros S H. unfold into_classes in H.
  destruct (match s_manager src with Some h => Some (a, h) | None => default_manager e a end) as [[a1 h]|] eqn:E; [|discriminate].
  assert (S1 : Q (a_world a1)).
  { destruct (s_manager src); [now injection E as <- _|]. eapply Q_default; eauto. }
  destruct (new_style e h (s_sheet src) (a_world a1)) as [w2 [x| | | | |]] eqn:N; try discriminate. cbv zeta in H.
  destruct (get_id _ x); [|discriminate]. injection H as <- <-. cbn [a_world with_world].
  apply (Qstep (fst (step e w2 (ODropManager h))) (ODropStyle x)); [q|].
  apply (Qstep w2 (ODropManager h)); [q|]. eapply Q_new_style; eauto.
Qed.
Lemma Q_use_style ctx src a a' x : Q (a_world a) -> use_style e ctx src a = Some (a', x) -> Q (a_world a').
Proof.
  intros S H. unfold use_style in H. destruct (context_manager e ctx a) as [[a1 h]|] eqn:E; [|discriminate].
  apply (Q_context _ _ _ _ S) in E. cbv zeta in H.
  destruct (new_style e h (s_sheet src) _) as [w2 [z| | | | |]] eqn:N; try discriminate. injection H as <- <-.
  cbn [a_world with_world]. apply (Qstep w2 (ODropManager h)); [q|].
  eapply Q_new_style; [|exact N]. now apply Q_drop_source.
Qed.
Lemma Q_astep a o a' : (forall h d, o <> AOp (OLoad h d)) -> Q (a_world a) -> astep y e a o = Some a' -> Q (a_world a').
Proof.
  intros L S H. destruct o as [o|ctx src|i ctx src|i|src|ctx src]; cbn [astep] in *.
  - destruct (free _ _ && free _ _); [|discriminate].
    assert (K : Q (fst (step e (a_world a) o))).
    { apply Qstep; auto. intros h d ->. now elim (L h d). }
    destruct (step e (a_world a) o) as [w [ | | | | | ]]; try discriminate; injection H as <-; exact K.
  - destruct (render_global y e None ctx src a) as [[a1 g]|] eqn:R; [|discriminate]. injection H as <-.
    cbn [a_world with_globals]. eapply Q_render; eauto.
  - destruct (nth_error (a_globals a) i) as [[g|]|]; try discriminate.
    destruct (render_global y e (Some g) ctx src a) as [[a1 g1]|] eqn:R; [|discriminate]. injection H as <-.
    cbn [a_world with_globals]. eapply Q_render; eauto.
  - destruct (nth_error (a_globals a) i) as [[g|]|]; try discriminate. injection H as <-. cbn. now apply Q_drop_guard.
  - destruct (user_source a src); [|discriminate].
    destruct (into_classes e src a) as [[a1 cl]|] eqn:C; [|discriminate]. injection H as <-. eapply Q_classes; eauto.
  - destruct (user_source a src); [|discriminate].
    destruct (use_style e ctx src a) as [[a1 cl]|] eqn:C; [|discriminate]. injection H as <-. eapply Q_use_style; eauto.
Qed.
Lemma Q_arun l : forall a a', loads_nothing l -> Q (a_world a) -> arun y e a l = Some a' -> Q (a_world a').
Proof.
  induction l as [|o l IH]; intros a a' L S H; cbn [arun] in H; [now injection H as <-|].
  destruct (astep y e a o) as [a1|] eqn:E; [|discriminate].
  apply (IH a1 a'); auto.
  - intros h d I. apply (L h d). now right.
  - eapply Q_astep; [|exact S|exact E]. intros h d ->. apply (L h d). now left.
Qed.
End Generic.

(** Hydrated contents are made by loading only. *)
Definition hydrated_below (n : nat) (w : world) : Prop :=
  forall cid c, nth_error (w_contents w) cid = Some c -> c_hydrated c = true -> cid < n.

Lemma hydrated_base n w w' :
  map base (w_contents w') = map base (w_contents w) -> hydrated_below n w -> hydrated_below n w'.
Proof.
  intros E H cid c Hc Hh. assert (K : nth_error (map base (w_contents w)) cid = Some (base c)).
  { rewrite <- E. now rewrite nth_error_map, Hc. }
  rewrite nth_error_map in K. destruct (nth_error (w_contents w) cid) as [d|] eqn:Hd; [|discriminate]. cbn in K.
  assert (K' : base c = base d) by congruence. apply (H cid d Hd). destruct (base_fields d c K') as (_ & _ & _ & _ & K0). congruence.
Qed.
Lemma hydrated_app n w w' c :
  w_contents w' = w_contents w ++ [c] -> c_hydrated c = false -> hydrated_below n w -> hydrated_below n w'.
Proof.
  intros E N H cid d Hd Hh. rewrite E in Hd. destruct (Nat.lt_ge_cases cid (List.length (w_contents w))) as [L|L].
  - rewrite nth_error_app1 in Hd by exact L. eauto.
  - rewrite nth_error_app2 in Hd by exact L. destruct (cid - List.length (w_contents w)) as [|k]; [|destruct k; discriminate Hd].
    cbn in Hd. injection Hd as <-. congruence.
Qed.
Lemma hydrated_step e n w o : (forall h d, o <> OLoad h d) -> hydrated_below n w -> hydrated_below n (fst (step e w o)).
Proof.
  intros NL H. assert (Z : hydrated_below n w -> hydrated_below n w) by auto.
  destruct o; cbn [step]; try exact H.
  - unfold build. destruct (e_wasm e); [|exact H]. destruct cont; [exact H|].
    destruct (e_document e); [|exact H]. destruct (e_head e); exact H.
  - unfold clone_manager. destruct (handle_of _ _); exact H.
  - eapply hydrated_base; [|exact H]. unfold drop_manager. destruct (handle_of _ _) as [mj|]; [|reflexivity].
    destruct (nth_error (w_mgrs w) mj) as [x|]; [|reflexivity]. cbv zeta. destruct (Nat.eqb _ _); cbn [fst]; [|reflexivity].
    match goal with |- map base (w_contents (release_all e ?l ?x)) = _ =>
      destruct (release_all_frame e l x) as (_ & _ & _ & _ & F) end. exact F.
  - destruct (handle_of (w_mhandles w) h) as [mj|]; [|exact H].
    unfold get_or_register. destruct (nth_error (w_mgrs w) mj) as [x|]; [|exact H].
    destruct (reg_get _ _) as [c|].
    + eapply hydrated_base; [|exact H]. cbn. apply base_upd_retain.
    + cbv zeta. destruct (_ && _); [exact H|]. destruct (m_data x).
      * eapply hydrated_app; [reflexivity| |exact H]. reflexivity.
      * destruct (mount _ _ _ _ _); [|exact H]. eapply hydrated_app; [reflexivity| |exact H]. reflexivity.
  - unfold clone_style. destruct (handle_of _ _) as [c|]; [|exact H].
    eapply hydrated_base; [|exact H]. cbn. apply base_upd_retain.
  - unfold drop_style. destruct (handle_of (w_handles w) h) as [c|]; [|exact H]. cbn [fst].
    eapply hydrated_base; [|exact H].
    match goal with |- map base (w_contents (release e ?l ?x)) = _ =>
      destruct (release_frame e l x) as (_ & _ & _ & _ & F) end. exact F.
  - unfold unregister_style. destruct (handle_of _ _) as [c|]; [|exact H].
    destruct (nth_error (w_contents w) c) as [x|]; [|exact H]. destruct (nth_error (w_mgrs w) (c_mgr x)) as [z|]; [|exact H].
    destruct (Nat.eqb _ _); [exact H|]. destruct (reg_remove _ _) as [r [q|]]; cbn [fst]; [|exact H].
    eapply hydrated_base; [|exact H].
    match goal with |- map base (w_contents (release e ?l ?x)) = _ =>
      destruct (release_frame e l x) as (_ & _ & _ & _ & F) end. exact F.
  - now elim (NL h d).
  - destruct (handle_of _ _); exact H.
Qed.

(** ** Providers *)

Lemma clone_handle_spec e page ids w gs extra h w' h' :
  good e page ids w gs extra -> clone_handle e h w = Some (w', h') ->
  good e page ids w' gs extra /\ steps e w w' /\ w_contents w' = w_contents w
  /\ w_dom w' = w_dom w /\ w_draws w' = w_draws w
  /\ (forall mi, handle_of (w_mhandles w) h = Some mi -> handle_of (w_mhandles w') h = Some mi
                 /\ handle_of (w_mhandles w') h' = Some mi)
  /\ (forall mi k cid, registered w mi k cid -> registered w' mi k cid)
  /\ exists mi, handle_of (w_mhandles w) h = Some mi.
Proof.
  intros G H. unfold clone_handle in H. destruct (step e w (OCloneManager h)) as [w1 [x| | | | |]] eqn:S; try discriminate.
  injection H as <- <-.
  assert (E : w1 = fst (step e w (OCloneManager h))) by now rewrite S.
  destruct (clone_result _ _ _ _ _ S) as (_ & mi & F1 & F2).
  split; [rewrite E; apply good_step; auto; discriminate|].
  split; [rewrite E; apply steps_one; tm|].
  assert (B : w_contents w1 = w_contents w /\ w_dom w1 = w_dom w /\ w_draws w1 = w_draws w
              /\ (forall mi k cid, registered w mi k cid -> registered w1 mi k cid)).
  { rewrite E. cbn [step]. unfold clone_manager. rewrite F1. cbn. repeat split; auto.
    intros mj k cid (m & Hm & I). unfold registered. cbn. destruct (Nat.eq_dec mj mi) as [->|N].
    - rewrite nth_upd_eq, Hm. eexists. split; [reflexivity|]. exact I.
    - rewrite nth_upd_ne by auto. exists m. split; [exact Hm|exact I]. }
  destruct B as (B1 & B2 & B3 & B4). split; auto. split; auto. split; auto. split; [|split; [exact B4|eauto]].
  intros mj Hj. rewrite F1 in Hj. injection Hj as <-. split; [|exact F2].
  rewrite E. apply step_mhandle_kept; auto. discriminate.
Qed.

Lemma provide_spec e page ids h d a a1 p :
  app_good e page ids a -> provide e h (Some d) a = Some (a1, p) ->
  exists mi, handle_of (w_mhandles (a_world a)) h = Some mi
  /\ app_good e page (ids ++ map r_id d) a1
  /\ handle_of (w_mhandles (a_world a1)) (v_context p) = Some mi
  /\ handle_of (w_mhandles (a_world a1)) (v_dep p) = Some mi
  /\ handle_of (w_mhandles (a_world a1)) h = Some mi
  /\ steps e (a_world a) (a_world a1)
  /\ w_dom (a_world a1) = w_dom (a_world a) /\ w_draws (a_world a1) = w_draws (a_world a)
  /\ (forall k cid, registered (a_world a) mi k cid -> registered (a_world a1) mi k cid)
  /\ (forall cid c, nth_error (w_contents (a_world a)) cid = Some c -> nth_error (w_contents (a_world a1)) cid = Some c)
  /\ (forall r, In r d -> exists cid c, registered (a_world a1) mi (r_key r) cid
        /\ nth_error (w_contents (a_world a1)) cid = Some c /\ c_id c = r_id r)
  /\ (forall cid c, nth_error (w_contents (a_world a1)) cid = Some c ->
        nth_error (w_contents (a_world a)) cid = Some c
        \/ exists r, In r d /\ c_id c = r_id r /\ c_key c = r_key r /\ registered (a_world a1) mi (r_key r) cid).
Proof.
  intros G H. unfold provide in H. destruct (clone_handle e h (a_world a)) as [[w1 c]|] eqn:C1; [|discriminate].
  destruct (clone_handle e h w1) as [[w2 dep]|] eqn:C2; [|discriminate]. unfold app_good in G.
  destruct (clone_handle_spec _ _ _ _ _ _ _ _ _ G C1) as (G1 & S1 & A1 & A2 & A3 & A4 & A5 & mi & Hh).
  destruct (clone_handle_spec _ _ _ _ _ _ _ _ _ G1 C2) as (G2 & S2 & B1 & B2 & B3 & B4 & B5 & _).
  destruct (A4 _ Hh) as [Hh1 Hc1]. destruct (B4 _ Hh1) as [Hh2 Hd2].
  assert (Hc2 : handle_of (w_mhandles w2) c = Some mi).
  { assert (w2 = fst (step e w1 (OCloneManager h))) as ->.
    { unfold clone_handle in C2. destruct (step e w1 (OCloneManager h)) as [wx [x| | | | |]]; try discriminate. now injection C2 as <- _. }
    apply step_mhandle_kept; auto. discriminate. }
  cbn [load_state] in H. destruct (step e w2 (OLoad dep d)) as [w3 [ ]] eqn:L; try discriminate.
  injection H as <- <-. cbn [a_world with_world v_context v_dep].
  assert (E3 : w3 = fst (step e w2 (OLoad dep d))) by now rewrite L.
  assert (G3 : good e page (ids ++ map r_id d) w3 (guards a) (dflt a)).
  { rewrite E3. replace (map r_id d) with (loaded_ids [OLoad dep d]) by (cbn; now rewrite app_nil_r).
    apply good_step_any; auto; discriminate. }
  exists mi. split; [exact Hh|]. split; [exact G3|].
  split; [rewrite E3; apply step_mhandle_kept; auto; discriminate|].
  split; [rewrite E3; apply step_mhandle_kept; auto; discriminate|].
  split; [rewrite E3; apply step_mhandle_kept; auto; discriminate|].
  split; [eapply steps_trans; [exact S1|]; eapply steps_trans; [exact S2|]; rewrite E3; apply steps_one; tm|].
  assert (C3 : core e (ids ++ map r_id d) [] w2).
  { pose proof (good_core _ _ _ _ _ _ G2) as K. eapply core_mono; [|exact K]. intros id I. apply in_app_iff. now left. }
  destruct (core_manager _ _ _ _ _ _ C3 Hd2) as (m & Hm & Hs).
  cbn [step] in L. rewrite Hd2 in L.
  destruct (load_data_spec e (ids ++ map r_id d) mi d w2 m w3 C3 Hm Hs) as (K1 & K2 & K3 & K4); auto.
  { intros r I. apply in_app_iff. right. now apply in_map. }
  assert (F : w_dom w3 = w_dom w2 /\ w_draws w3 = w_draws w2).
  { replace w3 with (fst (load_data mi d w2)) by now rewrite L. clear. revert w2. induction d as [|r l IH]; intros w; [auto|]. cbn [load_data].
    destruct (load_one mi r w) as [w1|] eqn:E; [|auto]. destruct (IH w1) as [-> ->]. clear IH.
    unfold load_one in E. destruct (nth_error (w_mgrs w) mi) as [m|]; [|now injection E as <-].
    destruct (reg_get _ _) as [cid|]; [|now injection E as <-].
    destruct (nth_error _ cid); [destruct (str_eqb _ _); [|discriminate]|]; now injection E as <-. }
  destruct F as [F1 F2]. split; [congruence|]. split; [congruence|].
  split; [auto|]. split; [intros cid x Hx; apply K2; congruence|]. split; [exact K3|].
  intros cid x Hx. destruct (K4 _ _ Hx) as [K|K]; [left; congruence|right; exact K].
Qed.
