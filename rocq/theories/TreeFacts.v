(** * TreeFacts: what rendering an application does, node by node. *)

From Coq Require Import String Ascii List NArith Bool Arith Lia Permutation.
From Verif Require Import Str StrFacts Ast Render CssParser SheetCache Ids IdFacts Manager SpecManager
  ManagerFacts ManagerInv ManagerSteps ManagerCore ManagerProps Hydrate Hooks SpecHooks HookFacts HookOnly
  HookTame HookKeep PropsManager SpecProgress PropsProgress Create SpecCreate CreateFacts
  Component SpecComponent ComponentFacts PropsHydrate Provider ProviderFacts PropsComponent Tree SpecTree.
Import ListNotations.
Local Open Scope list_scope.
Local Opaque parse to_style_str.

(** ** Steps that unregister and load nothing *)

Definition quiet (o : op) : bool := match o with OUnregister _ | OLoad _ _ => false | _ => true end.
Inductive calm (e : env) : world -> world -> Prop :=
| calm_refl w : calm e w w
| calm_more w o w' : quiet o = true -> calm e (fst (step e w o)) w' -> calm e w w'.

Lemma calm_trans e w w1 w2 : calm e w w1 -> calm e w1 w2 -> calm e w w2.
Proof. intros H. induction H; auto. intros K. eapply calm_more; eauto. Qed.
Lemma calm_one e w o : quiet o = true -> calm e w (fst (step e w o)).
Proof. intros Q. eapply calm_more; [exact Q|apply calm_refl]. Qed.
Lemma calm_res e w o w' r : quiet o = true -> step e w o = (w', r) -> calm e w w'.
Proof. intros Q S. replace w' with (fst (step e w o)) by now rewrite S. now apply calm_one. Qed.
Lemma calm_steps T e w w' : calm e w w' -> stepsT T e w w'.
Proof.
  induction 1 as [|w o w' Q _ IH]; [apply HookTame.steps_refl|]. eapply HookTame.steps_more; [|exact IH].
  intros h ->. discriminate.
Qed.

Lemma calm_default e a a1 h : default_manager e a = Some (a1, h) -> calm e (a_world a) (a_world a1).
Proof.
  unfold default_manager. destruct (a_default a) as [d|].
  - destruct (step e (a_world a) (OCloneManager d)) as [w [h'| | | | |]] eqn:S; try discriminate. intros H. injection H as <- <-.
    cbn. eapply calm_res; [|exact S]. reflexivity.
  - destruct (step e (a_world a) (OBuild _ None true false)) as [w [d| | | | |]] eqn:S; try discriminate.
    destruct (step e w (OCloneManager d)) as [w1 [h'| | | | |]] eqn:S1; try discriminate. intros H. injection H as <- <-.
    cbn. eapply calm_trans; eapply calm_res; [|exact S| |exact S1]; reflexivity.
Qed.
Lemma calm_context e ctx a a1 h : context_manager e ctx a = Some (a1, h) -> calm e (a_world a) (a_world a1).
Proof.
  destruct ctx as [d|]; cbn [context_manager]; [|apply calm_default].
  destruct (step e (a_world a) (OCloneManager d)) as [w [h'| | | | |]] eqn:S; try discriminate. intros H. injection H as <- <-.
  cbn. eapply calm_res; [|exact S]. reflexivity.
Qed.
Lemma calm_drop_source e src w : calm e w (drop_source e src w).
Proof. unfold drop_source. destruct (s_manager src); [now apply calm_one|apply calm_refl]. Qed.
Lemma calm_classes e src a a' cl : into_classes e src a = Some (a', cl) -> calm e (a_world a) (a_world a').
Proof.
  intros H. unfold into_classes in H.
  assert (K : exists a1 h, match s_manager src with Some h => Some (a, h) | None => default_manager e a end = Some (a1, h)
            /\ calm e (a_world a) (a_world a1)).
  { destruct (s_manager src) as [h|]; [exists a, h; split; auto; apply calm_refl|].
    destruct (default_manager e a) as [[a1 h]|] eqn:D; [|discriminate]. exists a1, h. split; auto. eapply calm_default; eauto. }
  destruct K as (a1 & h & E & S1). rewrite E in H. clear E. unfold new_style in H.
  destruct (manager_of (a_world a1) h) as [m|]; [|discriminate].
  destruct (step e (a_world a1) (OCreate h (style_key (m_prefix m) (s_sheet src)))) as [w2 [x| | | | |]] eqn:S; try discriminate.
  cbv zeta in H. destruct (get_id (fst (step e w2 (ODropManager h))) x) as [i|]; [|discriminate]. injection H as <- <-.
  eapply calm_trans; [exact S1|]. eapply calm_trans; [eapply calm_res; [|exact S]; reflexivity|].
  cbn [a_world with_world]. eapply calm_trans; [apply (calm_one e w2 (ODropManager h)); reflexivity|].
  now apply (calm_one e _ (ODropStyle x)).
Qed.
Definition is_plain (o : bop) : bool := match o with BDo _ => false | _ => true end.
Lemma plain_is_plain body : forall left, plain_body left body -> forallb is_plain body = true.
Proof.
  induction body as [|o b IH]; intros left Pb; auto. cbn [forallb].
  destruct o; cbn [plain_body is_plain] in *; [eauto|destruct Pb; eauto|destruct Pb; eauto|contradiction].
Qed.
Lemma calm_bstep y e f o f1 : is_plain o = true -> bstep y e f o = Some f1 ->
  calm e (a_world (p_app (f_prog f))) (a_world (p_app (f_prog f1))).
Proof.
  intros P H. destruct o as [loc s|i|i|o]; cbn [bstep] in H; [| | |discriminate].
  - destruct (step e (a_world (p_app (f_prog f))) (OCloneManager (f_manager f))) as [w [h| | | | |]] eqn:S; try discriminate.
    cbv beta iota delta [with_manager from_sheet drop_source s_manager s_sheet s_location] in H. injection H as <-.
    cbn. eapply calm_res; [|exact S]. reflexivity.
  - destruct (nth_error (f_sources f) i) as [[src|]|]; try discriminate.
    destruct (into_classes e src (p_app (f_prog f))) as [[a1 cl]|] eqn:Ic; [|discriminate]. injection H as <-. cbn. eapply calm_classes; eauto.
  - destruct (nth_error (f_sources f) i) as [[src|]|]; try discriminate. injection H as <-. apply calm_refl.
Qed.
Lemma calm_brun y e : forall body f f1, forallb is_plain body = true -> brun y e f body = Some f1 ->
  calm e (a_world (p_app (f_prog f))) (a_world (p_app (f_prog f1))).
Proof.
  induction body as [|o body IH]; intros f f1 P H; cbn [brun forallb] in *; [injection H as <-; apply calm_refl|].
  apply andb_prop in P. destruct P as [P1 P2]. destruct (bstep y e f o) as [f2|] eqn:B; [|discriminate].
  eapply calm_trans; [eapply calm_bstep; eauto|]. eauto.
Qed.
Lemma calm_leave e f : calm e (a_world (p_app (f_prog f))) (a_world (p_app (leave e f))).
Proof.
  unfold leave. cbn [p_app a_world with_world]. eapply calm_trans; [|apply calm_one; reflexivity].
  unfold drop_sources. generalize (a_world (p_app (f_prog f))). induction (rev (f_sources f)) as [|o l IH]; intros w; cbn [fold_left]; [apply calm_refl|].
  eapply calm_trans; [|apply IH]. destruct o as [src|]; [apply calm_drop_source|apply calm_refl].
Qed.
Lemma calm_render y e ctx body p p1 cls pas :
  plain_body [] body -> render_component y e ctx body p = Some (p1, cls, pas) ->
  calm e (a_world (p_app p)) (a_world (p_app p1)).
Proof.
  intros Pb H. unfold render_component in H. destruct (context_manager e ctx (p_app p)) as [[a h]|] eqn:C; [|discriminate].
  destruct (brun y e _ body) as [f|] eqn:B; [|discriminate]. injection H as <- <- <-.
  eapply calm_trans; [eapply calm_context; eauto|]. eapply calm_trans; [|apply calm_leave].
  apply plain_is_plain in Pb. apply (calm_brun _ _ _ _ _ Pb B).
Qed.
Lemma calm_clone e h w w' h' : clone_handle e h w = Some (w', h') -> calm e w w'.
Proof.
  unfold clone_handle. destruct (step e w (OCloneManager h)) as [w1 [x| | | | |]] eqn:S; try discriminate. intros H. injection H as <- <-.
  eapply calm_res; [|exact S]. reflexivity.
Qed.
Lemma calm_unprovide e v a : calm e (a_world a) (a_world (unprovide e v a)).
Proof. unfold unprovide. cbn [a_world with_world]. eapply calm_trans; apply calm_one; reflexivity. Qed.

Lemma calm_registered e w w' mi k cid :
  calm e w w' -> cored e w -> mlive w' mi -> registered w mi k cid -> registered w' mi k cid.
Proof.
  intros S C [h L] R. destruct (HookTame.keep_steps (fun _ _ => False) e w w' mi k cid (calm_steps _ _ _ _ S) C) as [|[_ D]]; auto.
  now elim (D h).
Qed.
Lemma calm_cored e w w' : calm e w w' -> cored e w -> cored e w'.
Proof. induction 1; auto. intros C. apply IHcalm, cored_step, C. Qed.

(** ** Managers that have only ever made what they still have *)

Definition tidy (w : world) (mi : nat) : Prop :=
  forall cid c, nth_error (w_contents w) cid = Some c -> c_mgr c = mi ->
  c_hydrated c = false /\ registered w mi (c_key c) cid.

Lemma quiet_contents e w o : quiet o = true ->
  let w' := fst (step e w o) in
  map base (w_contents w') = map base (w_contents w)
  \/ exists c, w_contents w' = w_contents w ++ [c] /\ c_hydrated c = false
       /\ registered w' (c_mgr c) (c_key c) (List.length (w_contents w)).
Proof.
  intros Q. destruct o; try discriminate; cbn [step]; auto.
  - left. unfold build. destruct (e_wasm e); [|reflexivity]. destruct cont; [reflexivity|].
    destruct (e_document e); [|reflexivity]. destruct (e_head e); reflexivity.
  - left. unfold clone_manager. destruct (handle_of _ _); reflexivity.
  - left. unfold drop_manager. destruct (handle_of _ _) as [mj|]; [|reflexivity].
    destruct (nth_error (w_mgrs w) mj) as [x|]; [|reflexivity]. cbv zeta. destruct (Nat.eqb _ _); cbn [fst]; [|reflexivity].
    match goal with |- map base (w_contents (release_all e ?l ?x)) = _ =>
      destruct (release_all_frame e l x) as (_ & _ & _ & _ & F) end. exact F.
  - destruct (handle_of (w_mhandles w) h) as [mj|]; [|now left].
    unfold get_or_register. destruct (nth_error (w_mgrs w) mj) as [x|] eqn:Hx; [|now left].
    destruct (reg_get _ _) as [c|].
    + left. cbn. apply base_upd_retain.
    + cbv zeta. destruct (_ && _); [now left|]. destruct (m_data x).
      * right. eexists. split; [reflexivity|]. split; [reflexivity|]. cbn. eexists. cbn. rewrite upd_upd, nth_upd_eq, Hx. split; [reflexivity|].
        cbn. apply in_app_iff. right. now left.
      * destruct (mount _ _ _ _ _); [|now left]. right. eexists. split; [reflexivity|]. split; [reflexivity|]. cbn. eexists. cbn.
        rewrite nth_upd_eq, Hx. split; [reflexivity|]. cbn. apply in_app_iff. right. now left.
  - left. unfold clone_style. destruct (handle_of _ _) as [c|]; [|reflexivity]. cbn. apply base_upd_retain.
  - left. unfold drop_style. destruct (handle_of (w_handles w) h) as [c|]; [|reflexivity]. cbn [fst].
    match goal with |- map base (w_contents (release e ?l ?x)) = _ =>
      destruct (release_frame e l x) as (_ & _ & _ & _ & F) end. exact F.
  - left. destruct (handle_of _ _); reflexivity.
Qed.

Lemma tidy_step e w o mi : quiet o = true -> cored e w -> mlive (fst (step e w o)) mi -> tidy w mi -> tidy (fst (step e w o)) mi.
Proof.
  intros Q C Lv T cid c Hc Em.
  assert (Old : forall c0, nth_error (w_contents w) cid = Some c0 -> base c = base c0 ->
                c_hydrated c = false /\ registered (fst (step e w o)) mi (c_key c) cid).
  { intros c0 H0 B. apply base_fields in B. destruct B as (B1 & B2 & B3 & B4 & B5).
    destruct (T cid c0 H0) as [T1 T2]; [congruence|]. split; [congruence|].
    rewrite B2. eapply calm_registered; [apply (calm_one _ _ _ Q)|exact C|exact Lv|exact T2]. }
  destruct (quiet_contents e w o Q) as [E|(x & E & Hx & R)]; cbv zeta in *.
  - assert (K : nth_error (map base (w_contents w)) cid = Some (base c)) by (rewrite <- E; now rewrite nth_error_map, Hc).
    rewrite nth_error_map in K. destruct (nth_error (w_contents w) cid) as [d|] eqn:Hd; [|discriminate]. cbn in K. apply (Old d); auto. congruence.
  - rewrite E in Hc. destruct (Nat.lt_ge_cases cid (List.length (w_contents w))) as [L|L].
    + rewrite nth_error_app1 in Hc by exact L. now apply (Old c).
    + rewrite nth_error_app2 in Hc by exact L. destruct (cid - List.length (w_contents w)) as [|k] eqn:K; [|destruct k; discriminate Hc].
      cbn in Hc. injection Hc as <-. split; auto. replace cid with (List.length (w_contents w)) by lia. now rewrite <- Em.
Qed.
Lemma tidy_calm e w w' mi : calm e w w' -> cored e w -> mi < List.length (w_mgrs w) -> mlive w' mi -> tidy w mi -> tidy w' mi.
Proof.
  induction 1 as [|w o w' Q S IH]; auto. intros C L Lv T. pose proof (step_mgrs_length e w o) as LL.
  assert (Lv1 : mlive (fst (step e w o)) mi) by (eapply mlive_steps; [eapply calm_steps; exact S| |exact Lv]; lia).
  apply IH; auto; [now apply cored_step|lia|]. now apply tidy_step.
Qed.

(** ** One node *)

Lemma plain_loads body : forall left, plain_body left body -> bloaded body = [].
Proof.
  induction body as [|o b IH]; intros left Pb; auto. unfold bloaded in *. cbn [flat_map].
  destruct o; cbn [plain_body] in *; [eauto|destruct Pb; eauto|destruct Pb; eauto|contradiction].
Qed.

Lemma comp_step y e page ids p h mi body p1 cls pas :
  pgood e page ids p -> owns (a_world (p_app p)) h mi -> plain_body [] body ->
  render_component y e (Some h) body p = Some (p1, cls, pas) ->
  pgood e page ids p1 /\ calm e (a_world (p_app p)) (a_world (p_app p1))
  /\ (forall j mj, owns (a_world (p_app p)) j mj -> owns (a_world (p_app p1)) j mj)
  /\ manager_handles (p_app p1) = manager_handles (p_app p)
  /\ Forall2 (classes_in (a_world (p_app p1)) mi) (asks [] body) cls.
Proof.
  intros G O Pb R. destruct (render_good _ _ _ _ _ _ _ _ _ _ G R) as [G1 S].
  rewrite (plain_loads _ _ Pb), app_nil_r in G1. pose proof (plain_unregisters _ Pb) as U. destruct (S U) as (_ & D & mi' & Cx & F).
  cbn [context_is] in Cx. unfold owns in O. rewrite O in Cx. injection Cx as <-.
  destruct (gives_back_good _ _ _ _ _ _ _ _ _ _ mi G R Pb O) as (Ow & _ & _ & _ & _ & Eg). cbv zeta in *.
  split; auto. split; [eapply calm_render; eauto|]. split; auto. split.
  - apply manager_handles_same; auto.
    destruct (render_plain _ _ _ _ _ _ _ _ _ _ G R Pb) as (a & h' & f & mi' & m & C & -> & _ & _ & _ & _ & _ & _ & _ & Fg & _ & _ & _ & _ & Ed & _).
    pose proof G as (_ & Ga & _). destruct (context_frame _ _ _ _ _ _ _ Ga C) as (_ & _ & _ & _ & _ & _ & K7).
    destruct (leave_spec _ _ _ _ _ _ Fg) as (_ & _ & L3 & _). rewrite L3, Ed. apply K7. discriminate.
  - apply F. exists h. now apply Ow.
Qed.

Lemma clone_owns e w h w' h' : clone_handle e h w = Some (w', h') ->
  h' = List.length (w_mhandles w) /\ List.length (w_mhandles w') = S h'
  /\ (forall j mj, owns w j mj -> owns w' j mj) /\ (forall mi, owns w h mi -> owns w' h' mi).
Proof.
  unfold clone_handle. destruct (step e w (OCloneManager h)) as [w1 [x| | | | |]] eqn:S; try discriminate. intros H. injection H as <- <-.
  destruct (clone_frame _ _ _ _ _ S) as (_ & _ & _ & F4 & mj & F5 & F6). unfold owns. rewrite F6.
  split; auto. split; [rewrite app_length; cbn; lia|]. split.
  - intros j mk Hj. now apply HookFacts.handle_app.
  - intros mi H. rewrite H in F5. injection F5 as <-. rewrite handle_app_eq. subst x. now rewrite Nat.eqb_refl.
Qed.
Lemma clone_succeeds e w h mi : owns w h mi -> exists w' h', clone_handle e h w = Some (w', h').
Proof. intros O. unfold clone_handle. cbn [step]. unfold clone_manager. rewrite O. eauto. Qed.
Lemma app_fresh e page ids a h : app_good e page ids a -> List.length (w_mhandles (a_world a)) <= h -> ~ In h (manager_handles a).
Proof.
  intros G L X. rewrite app_owned in X. pose proof (gd_live _ _ _ _ _ _ G) as GL. rewrite Forall_forall in GL. destruct (GL _ X) as [mk Hk]. apply handle_lt in Hk. lia.
Qed.

(** A provider is rendered. *)
Lemma prov_step e page ids p h d a1 v :
  pgood e page ids p -> provide e h d (p_app p) = Some (a1, v) ->
  (exists ids', pgood e page ids' (mk_prog a1 (p_cache p)) /\ (d = None -> ids' = ids))
  /\ stepsT (fun _ _ => False) e (a_world (p_app p)) (a_world a1) /\ (d = None -> calm e (a_world (p_app p)) (a_world a1))
  /\ (forall j mj, owns (a_world (p_app p)) j mj -> owns (a_world a1) j mj)
  /\ manager_handles a1 = manager_handles (p_app p)
  /\ (forall mi, owns (a_world (p_app p)) h mi -> owns (a_world a1) (v_context v) mi /\ owns (a_world a1) (v_dep v) mi)
  /\ v_context v = List.length (w_mhandles (a_world (p_app p))) /\ v_dep v = S (v_context v).
Proof.
  intros P H. pose proof P as (K & G & D). unfold provide in H. destruct (clone_handle e h (a_world (p_app p))) as [[w1 c]|] eqn:C1; [|discriminate].
  destruct (clone_handle e h w1) as [[w2 dep]|] eqn:C2; [|discriminate].
  destruct (clone_handle_spec _ _ _ _ _ _ _ _ _ G C1) as (G1 & S1 & _).
  destruct (clone_handle_spec _ _ _ _ _ _ _ _ _ G1 C2) as (G2 & S2 & _).
  destruct (clone_owns _ _ _ _ _ C1) as (A1 & A2 & A3 & A4). destruct (clone_owns _ _ _ _ _ C2) as (B1 & B2 & B3 & B4).
  pose proof (calm_trans _ _ _ _ (calm_clone _ _ _ _ _ C1) (calm_clone _ _ _ _ _ C2)) as Ca.
  destruct (load_state e dep d w2) as [w3|] eqn:L; [|discriminate]. injection H as <- <-. cbn [a_world with_world v_context v_dep].
  assert (Pw : forall w ids', good e page ids' w (guards (p_app p)) (dflt (p_app p)) -> steps e (a_world (p_app p)) w ->
               pgood e page ids' (mk_prog (with_world (p_app p) w) (p_cache p))).
  { intros w ids' Gw Sw. split; [exact K|]. split; [exact Gw|]. cbn [p_app]. destruct (a_default (p_app p)) as [dd|] eqn:Ed.
    - eapply default_stays; eauto.
    - intros dd X. cbn in X. congruence. }
  destruct d as [d|]; cbn [load_state] in L.
  - destruct (step e w2 (OLoad dep d)) as [w4 [ ]] eqn:E; try discriminate. injection L as ->.
    assert (E3 : w3 = fst (step e w2 (OLoad dep d))) by now rewrite E.
    assert (Kp : forall j mj, owns w2 j mj -> owns w3 j mj).
    { intros j mj Hj. unfold owns in *. rewrite E3. apply step_mhandle_kept; auto. discriminate. }
    split; [|split; [|split; [discriminate|split; [auto|split; [reflexivity|split; [|split; [auto|congruence]]]]]]].
    + exists (ids ++ map r_id d). split; [|discriminate]. apply Pw.
      * rewrite E3. replace (map r_id d) with (loaded_ids [OLoad dep d]) by (cbn; now rewrite app_nil_r). apply good_step_any; auto; discriminate.
      * eapply steps_trans; [exact S1|]. eapply steps_trans; [exact S2|]. rewrite E3. apply steps_one. tm.
    + eapply HookTame.steps_trans; [apply calm_steps; exact Ca|]. rewrite E3. apply HookTame.steps_one. tm.
    + intros mi O. split; auto.
  - injection L as ->. split; [|split; [apply calm_steps; exact Ca|split; [auto|split; [auto|split; [reflexivity|split; [|split; [auto|congruence]]]]]]].
    + exists ids. split; auto. apply Pw; auto. eapply steps_trans; eauto.
    + intros mi O. split; auto.
Qed.
Lemma provide_none e h mi a : owns (a_world a) h mi -> exists a1 v, provide e h None a = Some (a1, v).
Proof.
  intros O. unfold provide. destruct (clone_succeeds e _ _ _ O) as (w1 & c & E). rewrite E. destruct (clone_owns _ _ _ _ _ E) as (_ & _ & A3 & _).
  destruct (clone_succeeds e w1 h mi (A3 _ _ O)) as (w2 & dep & E2). rewrite E2. cbn. eauto.
Qed.

(** A provider is destroyed. *)
Lemma done_step e page ids p v :
  pgood e page ids p -> ~ In (v_context v) (manager_handles (p_app p)) -> ~ In (v_dep v) (manager_handles (p_app p)) ->
  let p1 := mk_prog (unprovide e v (p_app p)) (p_cache p) in
  pgood e page ids p1 /\ calm e (a_world (p_app p)) (a_world (p_app p1))
  /\ (forall j mj, j <> v_context v -> j <> v_dep v -> owns (a_world (p_app p)) j mj -> owns (a_world (p_app p1)) j mj)
  /\ manager_handles (p_app p1) = manager_handles (p_app p).
Proof.
  intros P N1 N2 p1. pose proof P as (K & G & D). pose proof (calm_unprovide e v (p_app p)) as Ca.
  split; [|split; [exact Ca|split; [|reflexivity]]].
  - apply pgood_world; [exact P| |apply calm_steps; exact Ca|reflexivity].
    unfold app_good, unprovide. cbn [a_world with_world]. rewrite app_owned in N1, N2.
    change (guards (with_world (p_app p) ?w)) with (guards (p_app p)). change (dflt (with_world (p_app p) ?w)) with (dflt (p_app p)).
    apply good_step; [apply good_step; [exact G|reflexivity|discriminate|]|reflexivity|discriminate|]; intros j E; injection E as <-; assumption.
  - intros j mj A B O. unfold owns in *. cbn [p1 p_app a_world with_world unprovide].
    apply step_mhandle_kept; [apply step_mhandle_kept; [exact O|congruence]|congruence].
Qed.

(** ** The server *)

Fixpoint live_handles (l : live) : list nat :=
  match l with
  | LEnd => []
  | LCompWait _ _ nx | LProvWait _ _ _ nx => live_handles nx
  | LComp _ _ ch nx | LProvDone _ _ ch nx => live_handles ch ++ live_handles nx
  | LProv _ v ch nx => v_context v :: v_dep v :: live_handles ch ++ live_handles nx
  end.
(** What the components of a tree have asked for, without those below further providers. *)
Fixpoint asks_of (l : live) : list (option str * sheet) :=
  match l with
  | LEnd => []
  | LCompWait _ _ nx | LProvWait _ _ _ nx | LProv _ _ _ nx | LProvDone _ _ _ nx => asks_of nx
  | LComp b _ ch nx => asks [] b ++ asks_of ch ++ asks_of nx
  end.

Lemma perm_left (t f l1 l a b : list nat) :
  Permutation (t ++ l1) (f ++ l) -> Permutation (t ++ a ++ l1 ++ b) (f ++ a ++ l ++ b).
Proof.
  intros H. rewrite !(Permutation_app_swap_app _ a). apply Permutation_app_head. rewrite !app_assoc. now apply Permutation_app_tail.
Qed.

Section Server.
Variables (y : yew) (e : env) (page : dom) (ids : list str) (ms : list nat) (sm : nat -> nat).
Let n := List.length ms.

Definition has_record (w : world) (mi : nat) (r : record) : Prop :=
  exists cid c, registered w mi (r_key r) cid /\ nth_error (w_contents w) cid = Some c /\ c_id c = r_id r.
Definition is_below (cur : option nat) : bool := match cur with Some _ => true | None => false end.

Fixpoint sgood (w : world) (cur : option nat) (l : live) : Prop :=
  match l with
  | LEnd => True
  | LCompWait b ch nx =>
      cur <> None /\ plain_body [] b /\ well_formed n true ch /\ sgood w cur nx
  | LComp b cls ch nx =>
      (exists k, cur = Some k /\ k < n /\ Forall2 (classes_in w (sm k)) (asks [] b) cls)
      /\ plain_body [] b /\ sgood w cur ch /\ sgood w cur nx
  | LProvWait k d ch nx => k < n /\ d = None /\ well_formed n true ch /\ sgood w cur nx
  | LProv k v ch nx => k < n /\ owns w (v_context v) (sm k) /\ sgood w (Some k) ch /\ sgood w cur nx
  | LProvDone k st ch nx =>
      (k < n /\ finished ch = true) /\ (forall r, In r st -> has_record w (sm k) r)
      /\ (forall x, In x (asks_of ch) -> exists m r, nth_error (w_mgrs w) (sm k) = Some m /\ In r st
            /\ r_key r = mk_key false (m_prefix m) (snd x))
      /\ sgood w (Some k) ch /\ sgood w cur nx
  end.

Lemma begin_handles v : live_handles (begin v) = [].
Proof. induction v; cbn; auto. Qed.
Lemma begin_sgood w cur v : well_formed n (is_below cur) v -> sgood w cur (begin v).
Proof.
  revert cur. induction v as [|b ch IHc nx IHn|k d ch IHc nx IHn]; intros cur H; cbn in *; auto.
  - destruct H as (A & B & C & D). split; [now destruct cur|]. split; auto. split; [|auto]. now rewrite A in C.
  - destruct H as (A & B & C & D). auto.
Qed.

Lemma has_record_calm w w' mi r : calm e w w' -> cored e w -> mlive w' mi -> has_record w mi r -> has_record w' mi r.
Proof.
  intros S C L (cid & c & A & B & D). destruct (HookTame.steps_contents (fun _ _ => False) _ _ _ _ _ (calm_steps _ _ _ _ S) B) as (c' & B' & E).
  apply base_fields in E. destruct E as (E & _). exists cid, c'. split; [eapply calm_registered; eauto|]. split; auto. congruence.
Qed.

Lemma sgood_calm w w' : calm e w w' -> cored e w -> (forall k, k < n -> mlive w' (sm k)) ->
  forall l cur, (forall h mi, In h (live_handles l) -> owns w h mi -> owns w' h mi) -> sgood w cur l -> sgood w' cur l.
Proof.
  intros S C Lv. pose proof (calm_steps any_global _ _ _ S) as St.
  induction l as [|b ch nx IHn|b cls ch IHc nx IHn|k d ch nx IHn|k v ch IHc nx IHn|k st ch IHc nx IHn]; intros cur O G; cbn [sgood live_handles] in *; auto.
  - destruct G as (A & B & D & E). auto.
  - destruct G as ((k & A & Lk & F) & B & D & E). split; [|split; [auto|split]].
    + exists k. split; auto. split; auto. eapply Forall2_weaken; [|exact F]. cbn. intros x cl Ci. eapply classes_in_steps; eauto.
    + apply IHc; auto. intros h mi I. apply O, in_or_app; auto.
    + apply IHn; auto. intros h mi I. apply O, in_or_app; auto.
  - destruct G as (A & B & D & E). auto.
  - destruct G as (A & B & D & E). split; auto. split; [apply O; [now left|exact B]|]. split.
    + apply IHc; auto. intros h mi I. apply O. right. right. apply in_or_app; auto.
    + apply IHn; auto. intros h mi I. apply O. right. right. apply in_or_app; auto.
  - destruct G as ([A A'] & B & B' & D & E). split; auto. split; [|split; [|split]].
    + intros r I. eapply has_record_calm; eauto.
    + intros x I. destruct (B' x I) as (m & r & Hm & Ir & Ek). destruct (steps_like _ _ _ _ _ St Hm) as (m' & Hm' & Ep & _). exists m', r. rewrite Ep. auto.
    + apply IHc; auto. intros h mi I. apply O, in_or_app; auto.
    + apply IHn; auto. intros h mi I. apply O, in_or_app; auto.
Qed.

(** What the components of a finished tree asked for is registered. *)
Lemma sgood_asks w k m l : sgood w (Some k) l -> nth_error (w_mgrs w) (sm k) = Some m ->
  forall x, In x (asks_of l) -> exists cid, registered w (sm k) (mk_key false (m_prefix m) (snd x)) cid.
Proof.
  intros G Hm. induction l as [|b ch nx IHn|b cls ch IHc nx IHn|k' d ch nx IHn|k' v ch IHc nx IHn|k' st ch IHc nx IHn]; intros x I; cbn [sgood asks_of] in *; try contradiction.
  - now apply IHn.
  - destruct G as ((k0 & A & _ & F) & _ & G1 & G2). injection A as <-. rewrite !in_app_iff in I. destruct I as [I|[I|I]]; auto.
    apply In_nth_error in I. destruct I as [i I]. destruct (Forall2_nth_l _ _ _ _ _ F I) as (cl & _ & m' & cid & c & A1 & A2 & _). rewrite Hm in A1. injection A1 as <-. eauto.
  - now apply IHn.
  - now apply IHn.
  - now apply IHn.
Qed.

Definition ctx_ok (w : world) (ctx cur : option nat) : Prop :=
  match ctx, cur with
  | None, None => True
  | Some h, Some k => k < n /\ owns w h (sm k)
  | _, _ => False
  end.

(** The whole state. *)
Record snode (p : prog) : Prop := mk_snode
  { sn_good : pgood e page ids p;
    sn_ms : forall k h, nth_error ms k = Some h -> owns (a_world (p_app p)) h (sm k) /\ ~ In h (manager_handles (p_app p));
    sn_tidy : forall k, k < n -> tidy (a_world (p_app p)) (sm k);
    sn_data : forall k, k < n -> exists m, nth_error (w_mgrs (a_world (p_app p))) (sm k) = Some m /\ m_data m <> None }.

Lemma in_app_head (h : nat) a b : In h a -> In h (a ++ b). Proof. intros; apply in_or_app; auto. Qed.
Lemma in_app_tail (h : nat) a b : In h b -> In h (a ++ b). Proof. intros; apply in_or_app; auto. Qed.
Lemma NoDup_apart (a b : list nat) h : NoDup (a ++ b) -> In h a -> In h b -> False.
Proof.
  induction a as [|x a IH]; [contradiction|]. cbn. intros N [->|I] J; inversion N as [|? ? N1 N2]; subst; auto.
  apply N1, in_or_app; auto.
Qed.
Lemma NoDup_both (a b : list nat) : NoDup a -> NoDup b -> (forall h, In h a -> In h b -> False) -> NoDup (a ++ b).
Proof.
  induction a as [|x a IH]; auto. cbn. intros N M K. inversion N as [|? ? N1 N2]; subst. constructor.
  - intros J. apply in_app_or in J. destruct J as [J|J]; [contradiction|]. now apply (K x); [left|].
  - apply IH; auto. intros h J. apply K. now right.
Qed.
Lemma NoDup_head (a b : list nat) : NoDup (a ++ b) -> NoDup a.
Proof. induction a as [|x a IH]; [constructor|]. cbn. intros N. inversion N as [|? ? N1 N2]; subst. constructor; auto. intros I. apply N1, in_or_app; auto. Qed.
Lemma NoDup_tail (a b : list nat) : NoDup (a ++ b) -> NoDup b.
Proof. induction a as [|x a IH]; auto. cbn. intros N. inversion N; auto. Qed.

(** One step of it: [taken] are the handles dropped, [fresh] the new ones. *)
Definition stepped (p : prog) (l : live) (cur : option nat) (p1 : prog) (l1 : live) (taken fresh : list nat) : Prop :=
  let w := a_world (p_app p) in let w1 := a_world (p_app p1) in
  Permutation (taken ++ live_handles l1) (fresh ++ live_handles l)
  /\ incl taken (live_handles l) /\ NoDup fresh
  /\ (forall h, In h fresh -> List.length (w_mhandles w) <= h /\ exists mi, owns w1 h mi)
  /\ calm e w w1 /\ pgood e page ids p1 /\ manager_handles (p_app p1) = manager_handles (p_app p)
  /\ (forall h mi, ~ In h taken -> owns w h mi -> owns w1 h mi)
  /\ sgood w1 cur l1.

Lemma read_state p v k : snode p -> k < n -> owns (a_world (p_app p)) (v_context v) (sm k) ->
  let w := a_world (p_app p) in
  server_state e v (p_app p) = map (fun c => mk_record (c_key c) (c_id c) (c_text c))
       (filter (fun c => negb (c_hydrated c) && Nat.eqb (c_mgr c) (sm k)) (w_contents w)).
Proof.
  intros S Lk O w. destruct (sn_data _ S k Lk) as (m & Hm & Hd). pose proof (sn_good _ S) as (_ & G & _).
  destruct (gd_reach _ _ _ _ _ _ G) as (l0 & Re & _). unfold server_state. unfold owns in O.
  rewrite (static_data_lists_created_styles e page l0 _ _ _ _ Re O Hm Hd). reflexivity.
Qed.
Lemma state_covers w k m : cored e w -> tidy w (sm k) -> nth_error (w_mgrs w) (sm k) = Some m ->
  let st := map (fun c => mk_record (c_key c) (c_id c) (c_text c))
       (filter (fun c => negb (c_hydrated c) && Nat.eqb (c_mgr c) (sm k)) (w_contents w)) in
  (forall r, In r st -> has_record w (sm k) r)
  /\ (forall key cid, registered w (sm k) key cid -> exists r c, In r st /\ r_key r = key
         /\ nth_error (w_contents w) cid = Some c /\ r_id r = c_id c /\ r_text r = c_text c).
Proof.
  intros C T Hm st. split.
  - intros r I. unfold st in I. apply in_map_iff in I. destruct I as (c & <- & I). apply filter_In in I. destruct I as [I B].
    apply andb_prop in B. destruct B as [_ B]. apply Nat.eqb_eq in B. apply In_nth_error in I. destruct I as [cid I].
    destruct (T _ _ I B) as [_ R]. exists cid, c. cbn. auto.
  - intros key cid R. pose proof R as (m' & Hm' & I). destruct C as [ids0 C]. destruct (o_reg _ _ _ _ C _ _ Hm') as (_ & _ & K). destruct (K _ _ I) as (c & Hc & Ek & Em).
    exists (mk_record (c_key c) (c_id c) (c_text c)), c. cbn. split; [|auto]. unfold st. apply in_map_iff. exists c. split; auto. apply filter_In.
    split; [eapply nth_error_In; eauto|]. destruct (T _ _ Hc Em) as [-> _]. cbn. now apply Nat.eqb_eq.
Qed.

Lemma sstep : forall l ctx cur path p p1 l1,
  snode p -> ctx_ok (a_world (p_app p)) ctx cur -> sgood (a_world (p_app p)) cur l ->
  NoDup (live_handles l) ->
  (forall h, In h (live_handles l) -> ~ In h ms /\ ~ In h (manager_handles (p_app p))) ->
  lstep y e true ms ctx path l p = LNext p1 l1 ->
  exists taken fresh, stepped p l cur p1 l1 taken fresh.
Proof.
  assert (Lift : forall (f : live -> live) r p1 l1, lmap f r = LNext p1 l1 -> exists l0, r = LNext p1 l0 /\ l1 = f l0).
  { intros f [p0 l0| |] p1 l1 H; cbn in H; try discriminate. injection H as <- <-. eauto. }
  assert (Lives : forall p p1 taken, snode p -> (forall h, In h taken -> ~ In h ms) ->
                  (forall h mi, ~ In h taken -> owns (a_world (p_app p)) h mi -> owns (a_world (p_app p1)) h mi) ->
                  forall k, k < n -> mlive (a_world (p_app p1)) (sm k)).
  { intros p p1 taken S Nt O k Lk. destruct (nth_error ms k) as [h|] eqn:E; [|apply nth_error_None in E; unfold n in Lk; lia].
    exists h. apply O; [intros I; apply (Nt _ I); eapply nth_error_In; eauto|]. now apply (sn_ms _ S k). }
  (* going down *)
  assert (Down : forall p p1 l0 l0' cur0 taken fresh a b others,
     snode p -> (forall h, In h (live_handles l0) -> ~ In h ms /\ ~ In h (manager_handles (p_app p))) ->
     stepped p l0 cur0 p1 l0' taken fresh ->
     NoDup (a ++ live_handles l0 ++ b) -> others = a ++ b ->
     (forall l cur, incl (live_handles l) others -> sgood (a_world (p_app p)) cur l -> sgood (a_world (p_app p1)) cur l)
     /\ (forall h mi, In h others -> owns (a_world (p_app p)) h mi -> owns (a_world (p_app p1)) h mi)
     /\ Permutation (taken ++ a ++ live_handles l0' ++ b) (fresh ++ a ++ live_handles l0 ++ b)
     /\ incl taken (a ++ live_handles l0 ++ b)
     /\ forall k, k < n -> mlive (a_world (p_app p1)) (sm k)).
  { intros p p1 l0 l0' cur0 taken fresh a b others S Fr (Pe & In1 & Nf & Ff & Ca & G1 & Mh & Ow & Sg) Nd ->.
    assert (O : forall h mi, In h (a ++ b) -> owns (a_world (p_app p)) h mi -> owns (a_world (p_app p1)) h mi).
    { intros h mi I. apply Ow. intros J. apply In1 in J. apply in_app_or in I. destruct I as [I|I].
      - eapply NoDup_apart; [exact Nd|exact I|]. apply in_app_head, J.
      - apply NoDup_tail in Nd. eapply NoDup_apart; [exact Nd|exact J|exact I]. }
    assert (Lv : forall k, k < n -> mlive (a_world (p_app p1)) (sm k)).
    { eapply Lives; [exact S| |exact Ow]. intros h I. apply Fr, In1, I. }
    split; [|split; [exact O|split; [now apply perm_left|split; [|exact Lv]]]].
    - intros l cur I G. pose proof (sn_good _ S) as (_ & Ga & _). eapply sgood_calm; [exact Ca|exact (good_cored _ _ _ _ _ _ Ga)|exact Lv| |exact G].
      intros h mi J. apply O, I, J.
    - intros h I. apply in_app_tail, in_app_head, In1, I. }
  induction l as [|b ch nx IHn|b cls ch IHc nx IHn|k d ch nx IHn|k v ch IHc nx IHn|k st ch IHc nx IHn];
    intros ctx cur path p p1 l1 S Cx G Nd Fr H; pose proof (sn_good _ S) as P; pose proof P as (_ & Ga & _);
    pose proof (good_cored _ _ _ _ _ _ Ga) as Co.
  - now destruct path.
  - (* a component that waits *)
    destruct path as [|[|] path]; cbn [lstep] in H; try discriminate.
    + cbn [sgood] in G. destruct G as (G1 & G2 & G3 & G4). destruct cur as [k|]; [|easy]. destruct ctx as [h|]; [|contradiction]. destruct Cx as [Lk O].
      destruct (render_component y e (Some h) b p) as [[[p2 cls] pas]|] eqn:R; [|discriminate]. injection H as <- <-.
      destruct (comp_step _ _ _ _ _ _ _ _ _ _ _ P O G2 R) as (P2 & Ca & Ow & Mh & F).
      exists [], []. unfold stepped. cbn [List.app live_handles]. rewrite begin_handles. cbn [List.app].
      split; [apply Permutation_refl|]. split; [easy|]. split; [constructor|]. split; [easy|]. split; auto. split; auto. split; auto. split; auto.
      assert (Lv : forall k, k < n -> mlive (a_world (p_app p2)) (sm k)) by (eapply (Lives p p2 []); auto).
      cbn [sgood]. split; [eauto|]. split; auto. split; [now apply begin_sgood|]. eapply sgood_calm; eauto.
    + apply Lift in H. destruct H as (l0 & H & ->). cbn [sgood live_handles] in G, Nd, Fr. destruct G as (G1 & G2 & G3 & G4).
      destruct (IHn _ _ _ _ _ _ S Cx G4 Nd Fr H) as (t & f & A). exists t, f. destruct A as (A1 & A2 & A3 & A4 & A5 & A6 & A7 & A8 & A9).
      unfold stepped. cbn [live_handles sgood]. repeat (split; auto).
  - (* a component *)
    destruct path as [|[|] path]; cbn [lstep] in H; try discriminate; apply Lift in H; destruct H as (l0 & H & ->);
      cbn [sgood live_handles] in G, Nd, Fr; destruct G as ((k & G1 & Lk & F) & G2 & G3 & G4).
    + destruct (IHc _ _ _ _ _ _ S Cx G3 (NoDup_head _ _ Nd) (fun h I => Fr h (in_app_head _ _ _ I)) H) as (t & f & A).
      destruct (Down _ _ _ _ _ _ _ [] (live_handles nx) _ S (fun h I => Fr h (in_app_head _ _ _ I)) A Nd eq_refl) as (D1 & D2 & D3 & D4 & D5).
      exists t, f. destruct A as (A1 & A2 & A3 & A4 & A5 & A6 & A7 & A8 & A9). unfold stepped. cbn [live_handles sgood List.app] in *.
      split; [exact D3|]. split; [exact D4|]. split; auto. split; auto. split; auto. split; auto. split; auto. split; auto.
      split; [|split; [auto|split; [auto|apply D1; [apply incl_refl|auto]]]].
      exists k. split; auto. split; auto. eapply Forall2_weaken; [|exact F]. cbn. intros x cl Ci.
      eapply classes_in_steps; [eapply calm_steps; exact A5|exact Co|exact Ci|auto].
    + destruct (IHn _ _ _ _ _ _ S Cx G4 (NoDup_tail _ _ Nd) (fun h I => Fr h (in_app_tail _ _ _ I)) H) as (t & f & A).
      assert (Nd' : NoDup (live_handles ch ++ live_handles nx ++ [])) by now rewrite app_nil_r.
      destruct (Down _ _ _ _ _ _ _ (live_handles ch) [] _ S (fun h I => Fr h (in_app_tail _ _ _ I)) A Nd' eq_refl) as (D1 & D2 & D3 & D4 & D5).
      rewrite !app_nil_r in *.
      exists t, f. destruct A as (A1 & A2 & A3 & A4 & A5 & A6 & A7 & A8 & A9). unfold stepped. cbn [live_handles sgood].
      split; [exact D3|]. split; [exact D4|]. split; auto. split; auto. split; auto. split; auto. split; auto. split; auto.
      split; [|split; [auto|split; [apply D1; [apply incl_refl|auto]|auto]]].
      exists k. split; auto. split; auto. eapply Forall2_weaken; [|exact F]. cbn. intros x cl Ci.
      eapply classes_in_steps; [eapply calm_steps; exact A5|exact Co|exact Ci|auto].
  - (* a provider that waits *)
    destruct path as [|[|] path]; cbn [lstep] in H; try discriminate.
    + cbn [sgood] in G. destruct G as (G1 & -> & G3 & G4). destruct (nth_error ms k) as [h|] eqn:Em; [|discriminate].
      destruct (sn_ms _ S _ _ Em) as [O No].
      destruct (provide e h None (p_app p)) as [[a1 v]|] eqn:E; [|discriminate]. injection H as <- <-.
      destruct (prov_step _ _ _ _ _ _ _ _ P E) as ((ids' & P1 & Ei) & _ & Ca & Ow & Mh & Ov & E1 & E2). rewrite (Ei eq_refl) in P1. specialize (Ca eq_refl). destruct (Ov _ O) as [O1 O2].
      exists [], [v_context v; v_dep v]. unfold stepped. cbn [List.app live_handles p_app]. rewrite begin_handles. cbn [List.app].
      split; [apply Permutation_refl|]. split; [easy|]. split; [repeat constructor; cbn; intros X; destruct X; [lia|auto]|]. split; [intros j [<-|[<-|[]]]; (split; [lia|eauto])|].
      split; auto. split; auto. split; auto. split; auto.
      assert (Lv : forall k, k < n -> mlive (a_world a1) (sm k)) by (apply (Lives p (mk_prog a1 (p_cache p)) []); auto).
      cbn [sgood]. split; auto. split; auto. split; [now apply begin_sgood|]. eapply sgood_calm; eauto.
    + apply Lift in H. destruct H as (l0 & H & ->). cbn [sgood live_handles] in G, Nd, Fr. destruct G as (G1 & G2 & G3 & G4).
      destruct (IHn _ _ _ _ _ _ S Cx G4 Nd Fr H) as (t & f & A). exists t, f. destruct A as (A1 & A2 & A3 & A4 & A5 & A6 & A7 & A8 & A9).
      unfold stepped. cbn [live_handles sgood]. repeat (split; auto).
  - (* a provider *)
    cbn [sgood live_handles] in G, Nd, Fr. destruct G as (G1 & G2 & G3 & G4).
    destruct path as [|[|] path]; cbn [lstep] in H; try discriminate.
    + destruct (finished ch) eqn:Fi; cbn in H; [|discriminate]. injection H as <- <-.
      destruct (Fr (v_context v)) as [X1 X2]; [now left|]. destruct (Fr (v_dep v)) as [X3 X4]; [right; now left|].
      destruct (done_step e page ids p v P X2 X4) as (P1 & Ca & Ow & Mh). cbv zeta in *.
      exists [v_context v; v_dep v], []. unfold stepped. cbn [List.app live_handles p_app] in *.
      split; [apply Permutation_refl|]. split; [intros j [<-|[<-|[]]]; [now left|right; now left]|]. split; [constructor|]. split; [easy|].
      split; auto. split; auto. split; auto. split; [intros j mj N; apply Ow; intros ->; apply N; [now left|right; now left]|].
      assert (Ow' : forall h mi, ~ In h [v_context v; v_dep v] -> owns (a_world (p_app p)) h mi -> owns (a_world (unprovide e v (p_app p))) h mi).
      { intros j mj N. apply Ow; intros ->; apply N; [now left|right; now left]. }
      assert (Lv : forall k, k < n -> mlive (a_world (unprovide e v (p_app p))) (sm k)).
      { apply (Lives p (mk_prog (unprovide e v (p_app p)) (p_cache p)) [v_context v; v_dep v] S); auto. intros h [<-|[<-|[]]]; auto. }
      inversion Nd as [|? ? N1 N2]; subst. inversion N2 as [|? ? N3 N4]; subst.
      assert (Sg : sgood (a_world (unprovide e v (p_app p))) cur (LProvDone k (server_state e v (p_app p)) ch nx)); [|exact Sg].
      destruct (sn_data _ S k G1) as (m & Hm & _).
      destruct (state_covers _ _ _ Co (sn_tidy _ S k G1) Hm) as [C1 C2]. cbv zeta in *.
      rewrite (read_state p v k S G1 G2).
      eapply sgood_calm; [exact Ca|exact Co|exact Lv| |].
      * intros h mi I. apply Ow'. intros [<-|[<-|[]]]; [apply N1; right; exact I|apply N3; exact I].
      * cbn [sgood]. split; auto. split; [exact C1|]. split; [|auto]. intros x I. destruct (sgood_asks _ _ _ _ G3 Hm x I) as [cid R].
        destruct (C2 _ _ R) as (r & c & A1 & A2 & _). exists m, r. auto.
    + apply Lift in H. destruct H as (l0 & H & ->).
      assert (Cx' : ctx_ok (a_world (p_app p)) (Some (v_context v)) (Some k)) by (split; auto).
      assert (Nd' : NoDup ([v_context v; v_dep v] ++ live_handles ch ++ live_handles nx)) by exact Nd.
      assert (Fr' : forall h, In h (live_handles ch) -> ~ In h ms /\ ~ In h (manager_handles (p_app p))).
      { intros h I. apply Fr. right. right. apply in_app_head, I. }
      destruct (IHc _ _ _ _ _ _ S Cx' G3 (NoDup_head _ _ (NoDup_tail _ _ Nd')) Fr' H) as (t & f & A).
      destruct (Down _ _ _ _ _ _ _ _ _ _ S Fr' A Nd' eq_refl) as (D1 & D2 & D3 & D4 & D5).
      exists t, f. destruct A as (A1 & A2 & A3 & A4 & A5 & A6 & A7 & A8 & A9). unfold stepped. cbn [live_handles sgood].
      split; [exact D3|]. split; [exact D4|]. split; auto. split; auto. split; auto. split; auto. split; auto. split; auto.
      split; auto. split; [apply D2; [now left|auto]|]. split; auto. apply D1; auto. intros h I. apply in_app_tail, I.
    + apply Lift in H. destruct H as (l0 & H & ->).
      assert (Nd' : NoDup (([v_context v; v_dep v] ++ live_handles ch) ++ live_handles nx ++ [])) by (rewrite app_nil_r; exact Nd).
      assert (Fr' : forall h, In h (live_handles nx) -> ~ In h ms /\ ~ In h (manager_handles (p_app p))).
      { intros h I. apply Fr. right. right. apply in_app_tail, I. }
      destruct (IHn _ _ _ _ _ _ S Cx G4 (NoDup_head _ _ (NoDup_tail _ _ Nd')) Fr' H) as (t & f & A).
      destruct (Down _ _ _ _ _ _ _ _ _ _ S Fr' A Nd' eq_refl) as (D1 & D2 & D3 & D4 & D5). rewrite !app_nil_r in *.
      exists t, f. destruct A as (A1 & A2 & A3 & A4 & A5 & A6 & A7 & A8 & A9). unfold stepped. cbn [live_handles sgood].
      split; [exact D3|]. split; [exact D4|]. split; auto. split; auto. split; auto. split; auto. split; auto. split; auto.
      split; auto. split; [apply D2; [now left|auto]|]. split; auto. apply D1; auto. intros h I. right. right. exact I.
  - (* a provider that is finished *)
    cbn [sgood live_handles] in G, Nd, Fr. destruct G as ([G1 Gf] & G2 & G2' & G3 & G4).
    destruct path as [|[|] path]; cbn [lstep] in H; try discriminate. apply Lift in H. destruct H as (l0 & H & ->).
    destruct (IHn _ _ _ _ _ _ S Cx G4 (NoDup_tail _ _ Nd) (fun h I => Fr h (in_app_tail _ _ _ I)) H) as (t & f & A).
    assert (Nd' : NoDup (live_handles ch ++ live_handles nx ++ [])) by now rewrite app_nil_r.
    destruct (Down _ _ _ _ _ _ _ (live_handles ch) [] _ S (fun h I => Fr h (in_app_tail _ _ _ I)) A Nd' eq_refl) as (D1 & D2 & D3 & D4 & D5).
    rewrite !app_nil_r in *.
    exists t, f. destruct A as (A1 & A2 & A3 & A4 & A5 & A6 & A7 & A8 & A9). unfold stepped. cbn [live_handles sgood].
    split; [exact D3|]. split; [exact D4|]. split; auto. split; auto. split; auto. split; auto. split; auto. split; auto.
    split; auto. split; [|split; [|split; [apply D1; [apply incl_refl|auto]|auto]]].
    + intros r I. eapply has_record_calm; eauto.
    + intros x I. destruct (G2' x I) as (m & r & Hm & Ir & Ek). destruct (steps_like _ _ _ _ _ (calm_steps any_global _ _ _ A5) Hm) as (m' & Hm' & Ep & _). exists m', r. rewrite Ep. auto.
Qed.
End Server.

(** A whole run of the server. *)
Section ServerRun.
Variables (y : yew) (e : env) (page : dom) (ids : list str) (ms : list nat) (sm : nat -> nat).
Let n := List.length ms.

Record sstate (p : prog) (l : live) : Prop := mk_sstate
  { ss_node : snode e page ids ms sm p;
    ss_good : sgood ms sm (a_world (p_app p)) None l;
    ss_nodup : NoDup (live_handles l);
    ss_apart : forall h, In h (live_handles l) -> ~ In h ms /\ ~ In h (manager_handles (p_app p));
    ss_live : forall h, In h (live_handles l) -> exists mi, owns (a_world (p_app p)) h mi }.

Lemma sstate_step path p l p1 l1 : sstate p l -> lstep y e true ms None path l p = LNext p1 l1 -> sstate p1 l1.
Proof.
  intros [N G Nd Fr Lv] H. destruct (sstep _ _ _ _ _ _ _ None None _ _ _ _ N I G Nd Fr H) as (t & f & A1 & A2 & A3 & A4 & A5 & A6 & A7 & A8 & A9).
  pose proof (sn_good _ _ _ _ _ _ N) as P. pose proof P as (_ & Ga & _). pose proof (good_cored _ _ _ _ _ _ Ga) as Co.
  assert (Nd1 : NoDup (t ++ live_handles l1)).
  { eapply Permutation_NoDup; [apply Permutation_sym; exact A1|]. apply NoDup_both; auto. intros h I J.
    destruct (A4 h I) as [X _]. destruct (Lv h J) as [mi Y]. apply handle_lt in Y. lia. }
  assert (In1 : forall h, In h (live_handles l1) -> In h f \/ In h (live_handles l) /\ ~ In h t).
  { intros h I. assert (J : In h (f ++ live_handles l)) by (eapply Permutation_in; [exact A1|apply in_app_tail, I]).
    apply in_app_or in J. destruct J as [J|J]; auto. right. split; auto. intros K. eapply NoDup_apart; eauto. }
  assert (Nt : forall h, In h t -> ~ In h ms) by (intros h K; apply Fr, A2, K).
  assert (Om : forall k h, nth_error ms k = Some h -> owns (a_world (p_app p1)) h (sm k) /\ ~ In h (manager_handles (p_app p1))).
  { intros k h E. destruct (sn_ms _ _ _ _ _ _ N k h E) as [X Y]. rewrite A7. split; auto. apply A8; auto. intros K. apply (Nt _ K). eapply nth_error_In; eauto. }
  assert (Lk : forall k, k < n -> exists h, nth_error ms k = Some h).
  { intros k L. destruct (nth_error ms k) as [h|] eqn:E; [eauto|]. apply nth_error_None in E. unfold n in L. lia. }
  split; auto.
  - split; auto.
    + intros k L. destruct (Lk k L) as [h E]. destruct (sn_data _ _ _ _ _ _ N k L) as (m & Hm & _).
      eapply tidy_calm; [exact A5|exact Co|apply nth_error_Some; congruence|exists h; now apply Om|now apply (sn_tidy _ _ _ _ _ _ N)].
    + intros k L. destruct (sn_data _ _ _ _ _ _ N k L) as (m & Hm & D).
      destruct (tied_steps _ _ _ _ _ (calm_steps _ _ _ _ A5) Hm) as (m' & Hm' & T & _). exists m'. split; auto. tauto.
  - now apply NoDup_tail in Nd1.
  - intros h K. rewrite A7. destruct (In1 h K) as [J|[J _]]; auto. destruct (A4 h J) as [X _]. split.
    + intros M. apply In_nth_error in M. destruct M as [k M]. destruct (sn_ms _ _ _ _ _ _ N k h M) as [Y _]. apply handle_lt in Y. lia.
    + eapply app_fresh; eauto.
  - intros h K. destruct (In1 h K) as [J|[J J']]; [now apply A4|]. destruct (Lv h J) as [mi O]. exists mi. auto.
Qed.
Lemma sstate_run : forall sch p l p1 l1, sstate p l -> lrun y e true ms None sch l p = LNext p1 l1 -> sstate p1 l1.
Proof.
  induction sch as [|path sch IH]; intros p l p1 l1 S H; cbn [lrun] in H.
  - now injection H as <- <-.
  - destruct (lstep y e true ms None path l p) as [p2 l2| |] eqn:E; [|discriminate|eauto].
    eapply IH; [|exact H]. eapply sstate_step; eauto.
Qed.

(** ** The server does not panic, and can go on *)

(** What is still to be asked for. *)
Fixpoint pending (l : live) : list (option str * sheet) :=
  match l with
  | LEnd => []
  | LCompWait b ch nx => asks [] b ++ css_of ch ++ pending nx
  | LProvWait _ _ ch nx => css_of ch ++ pending nx
  | LComp _ _ ch nx | LProv _ _ ch nx | LProvDone _ _ ch nx => pending ch ++ pending nx
  end.
Lemma begin_pending v : pending (begin v) = css_of v.
Proof. induction v; cbn; congruence. Qed.

(** How many steps there are. *)
Fixpoint nodes (v : view) : nat :=
  match v with
  | VEnd => 0
  | VComp _ ch nx => 1 + nodes ch + nodes nx
  | VProv _ _ ch nx => 2 + nodes ch + nodes nx
  end.
Fixpoint left_to_do (l : live) : nat :=
  match l with
  | LEnd => 0
  | LCompWait _ ch nx => 1 + nodes ch + left_to_do nx
  | LProvWait _ _ ch nx => 2 + nodes ch + left_to_do nx
  | LProv _ _ ch nx => 1 + left_to_do ch + left_to_do nx
  | LComp _ _ ch nx | LProvDone _ _ ch nx => left_to_do ch + left_to_do nx
  end.
Lemma begin_left v : left_to_do (begin v) = nodes v.
Proof. induction v; cbn; congruence. Qed.

Lemma lift_next (f : live -> live) r p1 l1 : lmap f r = LNext p1 l1 -> exists l0, r = LNext p1 l0 /\ l1 = f l0.
Proof. destruct r as [p0 l0| |]; cbn; intros H; try discriminate. injection H as <- <-. eauto. Qed.
Lemma lift_panic (f : live -> live) r : lmap f r = LPanic -> r = LPanic.
Proof. destruct r; cbn; congruence. Qed.

Lemma step_pending e0 srv ms0 : forall l ctx path p p1 l1, lstep y e0 srv ms0 ctx path l p = LNext p1 l1 ->
  incl (pending l1) (pending l) /\ left_to_do l = S (left_to_do l1).
Proof. clear n ms sm.
  induction l as [|b ch nx IHn|b cls ch IHc nx IHn|k d ch nx IHn|k v ch IHc nx IHn|k st ch IHc nx IHn];
    intros ctx path p p1 l1 H; destruct path as [|[|] path]; cbn [lstep] in H; try discriminate;
    try (apply lift_next in H; destruct H as (l0 & H & ->));
    try (apply IHn in H || apply IHc in H; destruct H as [H1 H2]; cbn [pending left_to_do]; split;
         [intros x I; rewrite !in_app_iff in *; intuition|lia]).
  - destruct (render_component y e0 ctx b p) as [[[p2 cls] pas]|]; [|discriminate]. injection H as <- <-. cbn [pending left_to_do].
    rewrite begin_pending, begin_left. split; [apply incl_appr, incl_refl|reflexivity].
  - destruct (nth_error ms0 k) as [h|]; [|discriminate]. destruct (provide e0 h d (p_app p)) as [[a1 v]|]; [|discriminate]. injection H as <- <-.
    cbn [pending left_to_do]. rewrite begin_pending, begin_left. split; [apply incl_refl|reflexivity].
  - destruct (srv && finished ch); [|discriminate]. injection H as <- <-. cbn [pending left_to_do]. split; [apply incl_refl|lia].
Qed.

Lemma no_panic : forall l ctx cur path p,
  snode e page ids ms sm p -> ctx_ok ms sm (a_world (p_app p)) ctx cur -> sgood ms sm (a_world (p_app p)) cur l ->
  (forall k m x, k < n -> nth_error (w_mgrs (a_world (p_app p))) (sm k) = Some m -> In x (pending l) ->
     rereads e (mk_key false (m_prefix m) (snd x))) ->
  lstep y e true ms ctx path l p <> LPanic.
Proof.
  induction l as [|b ch nx IHn|b cls ch IHc nx IHn|k d ch nx IHn|k v ch IHc nx IHn|k st ch IHc nx IHn];
    intros ctx cur path p N Cx G Rr H; destruct path as [|[|] path]; cbn [lstep pending] in *; try discriminate; try apply lift_panic in H.
  - cbn [sgood] in G. destruct G as (G1 & G2 & G3 & G4). destruct cur as [k|]; [|easy]. destruct ctx as [h|]; [|contradiction]. destruct Cx as [Lk O].
    destruct (sn_data _ _ _ _ _ _ N k Lk) as (m & Hm & D).
    destruct (never_panics_good y e page ids p (Some h) b (m_prefix m)) as (p1 & cls & pas & R); auto.
    + apply (sn_good _ _ _ _ _ _ N).
    + cbn. exists (sm k), m. split; auto. split; auto. split; auto. now left.
    + intros x I. apply (Rr k m x); auto. apply in_or_app; auto.
    + rewrite R in H. discriminate.
  - cbn [sgood] in G. eapply IHn; [exact N|exact Cx| | |exact H]; [tauto|]. intros k m x A B I. apply (Rr k m x); auto. rewrite !in_app_iff; auto.
  - cbn [sgood] in G. eapply IHc; [exact N|exact Cx| | |exact H]; [tauto|]. intros k m x A B I. apply (Rr k m x); auto. rewrite !in_app_iff; auto.
  - cbn [sgood] in G. eapply IHn; [exact N|exact Cx| | |exact H]; [tauto|]. intros k m x A B I. apply (Rr k m x); auto. rewrite !in_app_iff; auto.
  - cbn [sgood] in G. destruct G as (G1 & -> & G3 & G4). destruct (nth_error ms k) as [h|] eqn:E; [|discriminate].
    destruct (sn_ms _ _ _ _ _ _ N k h E) as [O _]. destruct (provide_none e h _ _ O) as (a1 & v & E1). rewrite E1 in H. discriminate.
  - cbn [sgood] in G. eapply IHn; [exact N|exact Cx| | |exact H]; [tauto|]. intros k' m x A B I. apply (Rr k' m x); auto. rewrite !in_app_iff; auto.
  - destruct (true && finished ch); discriminate.
  - cbn [sgood] in G. destruct G as (G1 & G2 & G3 & G4). eapply (IHc _ (Some k)); [exact N| |exact G3| |exact H]; [split; auto|]. intros k' m x A B I. apply (Rr k' m x); auto. rewrite !in_app_iff; auto.
  - cbn [sgood] in G. eapply IHn; [exact N|exact Cx| | |exact H]; [tauto|]. intros k' m x A B I. apply (Rr k' m x); auto. rewrite !in_app_iff; auto.
  - cbn [sgood] in G. eapply IHn; [exact N|exact Cx| | |exact H]; [tauto|]. intros k' m x A B I. apply (Rr k' m x); auto. rewrite !in_app_iff; auto.
Qed.

Lemma not_stuck : forall l ctx cur p, sgood ms sm (a_world (p_app p)) cur l -> finished l = false ->
  exists path, lstep y e true ms ctx path l p <> LIdle.
Proof.
  assert (Sub : forall (f : live -> live) r, r <> LIdle -> lmap f r <> LIdle) by (intros f [ | |]; cbn; congruence).
  induction l as [|b ch nx IHn|b cls ch IHc nx IHn|k d ch nx IHn|k v ch IHc nx IHn|k st ch IHc nx IHn];
    intros ctx cur p G F; cbn [finished sgood] in *; try discriminate.
  - exists []. cbn [lstep]. destruct (render_component y e ctx b p) as [[[p2 cls] pas]|]; discriminate.
  - destruct G as (_ & _ & G3 & G4). destruct (finished ch) eqn:Fc; cbn in F.
    + destruct (IHn ctx cur p G4 F) as [path H]. exists (false :: path). cbn [lstep]. auto.
    + destruct (IHc ctx cur p G3 eq_refl) as [path H]. exists (true :: path). cbn [lstep]. auto.
  - destruct G as (G1 & _). exists []. cbn [lstep]. destruct (nth_error ms k) eqn:E; [|apply nth_error_None in E; lia].
    destruct (provide e n0 d (p_app p)) as [[a v]|]; discriminate.
  - destruct G as (_ & _ & G3 & G4). destruct (finished ch) eqn:Fc.
    + exists []. cbn [lstep]. rewrite Fc. discriminate.
    + destruct (IHc (Some (v_context v)) (Some k) p G3 eq_refl) as [path H]. exists (true :: path). cbn [lstep]. auto.
  - destruct G as ([_ Fc] & _ & _ & G3 & G4). rewrite Fc in F. cbn in F.
    destruct (IHn ctx cur p G4 F) as [path H]. exists (false :: path). cbn [lstep]. auto.
Qed.

Lemma lrun_app e0 srv ms0 ctx : forall s1 s2 l p p1 l1, lrun y e0 srv ms0 ctx s1 l p = LNext p1 l1 ->
  lrun y e0 srv ms0 ctx (s1 ++ s2) l p = lrun y e0 srv ms0 ctx s2 l1 p1.
Proof.
  induction s1 as [|path s1 IH]; intros s2 l p p1 l1 H; cbn [lrun List.app] in *; [now injection H as <- <-|].
  destruct (lstep y e0 srv ms0 ctx path l p); [eauto|discriminate|eauto].
Qed.
Lemma run_pending e0 srv ms0 ctx : forall sch l p p1 l1, lrun y e0 srv ms0 ctx sch l p = LNext p1 l1 -> incl (pending l1) (pending l).
Proof.
  induction sch as [|path sch IH]; intros l p p1 l1 H; cbn [lrun] in *; [injection H as <- <-; apply incl_refl|].
  destruct (lstep y e0 srv ms0 ctx path l p) as [p2 l2| |] eqn:E; [|discriminate|eauto].
  apply step_pending in E. destruct E as [E _]. eapply incl_tran; [eauto|exact E].
Qed.

Definition can_read (p : prog) (l : live) : Prop :=
  forall k m x, k < n -> nth_error (w_mgrs (a_world (p_app p))) (sm k) = Some m -> In x (pending l) ->
     rereads e (mk_key false (m_prefix m) (snd x)).
Lemma can_read_step path p l p1 l1 : sstate p l -> lstep y e true ms None path l p = LNext p1 l1 -> can_read p l -> can_read p1 l1.
Proof.
  intros S H C k m x L Hm I. destruct (sn_data _ _ _ _ _ _ (ss_node _ _ S) k L) as (m0 & Hm0 & _).
  destruct S as [N G Nd Fr Lv]. destruct (sstep _ _ _ _ _ _ _ None None _ _ _ _ N Logic.I G Nd Fr H) as (t & f & _ & _ & _ & _ & A5 & _).
  destruct (steps_like _ _ _ _ _ (calm_steps _ _ _ _ A5) Hm0) as (m' & Hm' & Ep & _). rewrite Hm in Hm'. injection Hm' as <-. rewrite Ep.
  apply (C k); auto. apply step_pending in H. now apply H.
Qed.
Lemma run_never_panics : forall sch p l, sstate p l -> can_read p l -> exists p1 l1, lrun y e true ms None sch l p = LNext p1 l1 /\ sstate p1 l1 /\ can_read p1 l1.
Proof.
  induction sch as [|path sch IH]; intros p l S C; cbn [lrun]; [eauto|].
  destruct (lstep y e true ms None path l p) as [p2 l2| |] eqn:E; [| |eauto].
  - apply IH; [eapply sstate_step; eauto|eapply can_read_step; eauto].
  - exfalso. revert E. apply (no_panic l None None); [apply (ss_node _ _ S)|exact I|apply (ss_good _ _ S)|exact C].
Qed.
Lemma run_finishes : forall p l, sstate p l -> can_read p l -> exists sch p1 l1, lrun y e true ms None sch l p = LNext p1 l1 /\ finished l1 = true.
Proof.
  intros p l. remember (left_to_do l) as q eqn:Eq. revert p l Eq. induction q as [|q IH]; intros p l Eq S C;
    (destruct (finished l) eqn:F; [exists [], p, l; auto|]);
    destruct (not_stuck l None None p (ss_good _ _ S) F) as [path H];
    destruct (lstep y e true ms None path l p) as [p2 l2| |] eqn:E; try congruence;
    try (exfalso; revert E; apply (no_panic l None None); [apply (ss_node _ _ S)|exact I|apply (ss_good _ _ S)|exact C]).
  - apply step_pending in E. lia.
  - pose proof (step_pending _ _ _ _ _ _ _ _ _ E) as [_ E2].
    destruct (IH p2 l2) as (sch & p1 & l1 & R & F1); [lia|eapply sstate_step; eauto|eapply can_read_step; eauto|].
    exists (path :: sch), p1, l1. cbn [lrun]. rewrite E. auto.
Qed.

(** The start. *)
Lemma sstate_begin p v : pgood e page ids p -> managers_are p ms sm -> well_formed n false v ->
  (forall k, k < n -> new_collector (a_world (p_app p)) (sm k)) -> sstate p (begin v).
Proof.
  intros P [_ M] W Nc. split.
  - split; auto.
    + intros k L cid c Hc Em. destruct (Nc k L) as [_ X]. now elim (X cid c Hc).
    + intros k L. apply (Nc k L).
  - now apply begin_sgood.
  - rewrite begin_handles. constructor.
  - rewrite begin_handles. intros h [].
  - rewrite begin_handles. intros h [].
Qed.
End ServerRun.

(** ** The browser *)

(** A class of a style that is there is always got. *)
Lemma classes_reuse e page ids src h a mi m cid :
  app_good e page ids a -> s_manager src = Some h -> ~ In h (manager_handles a) ->
  handle_of (w_mhandles (a_world a)) h = Some mi -> nth_error (w_mgrs (a_world a)) mi = Some m ->
  registered (a_world a) mi (style_key (m_prefix m) (s_sheet src)) cid ->
  exists a' cl, into_classes e src a = Some (a', cl).
Proof.
  intros G Es N Hh Hm R. assert (Mo : manager_of (a_world a) h = Some m) by (unfold manager_of; now rewrite Hh).
  pose proof (classes_are_impl e src h a m Es Mo) as Ei.
  set (src0 := mk_source (s_sheet src) None (s_location src)) in *.
  assert (Ga : good e page ids (a_world a) (guards a) (h :: source_handles src0 ++ dflt a)).
  { cbn [source_handles src0 s_manager List.app]. eapply good_add; [exact G| |exact Hh]. rewrite app_owned in N. exact N. }
  destruct (create_impl e (Some (m_prefix m)) src0 h (a_world a)) as [w r] eqn:P.
  destruct (impl_spec e page ids _ _ _ _ _ _ _ _ Ga P) as (G1 & S1 & L1 & H1 & mi' & m' & Hh' & Hm' & Md).
  rewrite Hh in Hh'. injection Hh' as <-. rewrite Hm in Hm'. injection Hm' as <-.
  destruct (impl_reused e page ids _ _ _ _ _ _ _ _ _ _ Ga P Hh Hm cid R) as (x & -> & _).
  destruct Md as (cid' & c & M1 & M2 & M3 & _). rewrite Ei.
  assert (Hx : handle_of (w_handles w) x = Some cid') by (rewrite M1, M2, handle_app_eq, Nat.eqb_refl; reflexivity).
  unfold get_id, handle_content. rewrite Hx, M3. cbn. eauto.
Qed.

Lemma reuse_progress y e page w0 mi m0 : forall body ids made f,
  fgood e page ids mi made f -> plain w0 mi f -> steps e w0 (a_world (p_app (f_prog f))) -> nth_error (w_mgrs w0) mi = Some m0 ->
  f_manager f < List.length (w_mhandles w0) ->
  plain_body (map is_there (f_sources f)) body ->
  (forall x, In x (asks made body) -> exists cid, registered (a_world (p_app (f_prog f))) mi (mk_key false (m_prefix m0) (snd x)) cid) ->
  exists f1, brun y e f body = Some f1.
Proof.
  induction body as [|o body IH]; intros ids made f G Pl S0 Hm0 Lf Pb A; cbn [brun]; [eauto|].
  assert (Z : exists f2, bstep y e f o = Some f2).
  { destruct G as [P Nd Lv Mk]. destruct o as [loc s|i|i|o]; cbn [plain_body] in Pb; cbn [bstep]; [| | |contradiction].
    - destruct (Lv (f_manager f)) as [Lm _]; [now left|]. cbn [step]. unfold clone_manager. rewrite Lm. cbn. eauto.
    - destruct Pb as [Pb _]. rewrite nth_error_map in Pb. destruct (nth_error (f_sources f) i) as [[src|]|] eqn:Ei; try discriminate.
      destruct (Forall2_nth_r _ _ _ _ _ Mk Ei) as (x & Em & E1 & E2 & E3). destruct (s_manager src) as [h|] eqn:Es; [|easy]. clear E3.
      destruct (sources_handles_take _ _ _ Ei) as (l1 & l2 & Q1 & Q2). unfold source_handles in Q1. rewrite Es in Q1. cbn [List.app] in Q1.
      assert (Ih : In h (frame_handles f)) by (unfold frame_handles; rewrite Q1; right; apply in_or_app; right; now left).
      destruct (Lv h Ih) as [Hh Oh]. pose proof P as (K & Ga & D).
      destruct (steps_like _ _ _ _ _ S0 Hm0) as (m & Hm & Ep & _).
      destruct (A x) as [cid R]. { rewrite asks_cons. cbn [asked]. rewrite Em. now left. }
      destruct (classes_reuse e page ids src h (p_app (f_prog f)) mi m cid Ga Es Oh Hh Hm) as (a1 & cl & ->); [|eauto].
      unfold style_key. now rewrite Ep, E1.
    - destruct Pb as [Pb _]. rewrite nth_error_map in Pb. destruct (nth_error (f_sources f) i) as [[src|]|] eqn:Ei; try discriminate. eauto. }
  destruct Z as [f2 B]. rewrite B. destruct (bstep_good _ _ _ _ _ _ _ _ _ G B) as (G2 & M2 & S2 & _).
  assert (U : bunregisters o = false) by (destruct o; auto; destruct Pb). destruct (S2 U) as [St2 _].
  destruct (plain_bstep _ _ _ _ _ _ _ _ _ _ _ _ G Pl S0 Hm0 Lf Pb B) as (P2 & Pb2 & _ & _ & _ & _ & R2).
  rewrite asks_cons in A. destruct R2 as [_ N2]; [intros x I; apply A, in_or_app; now left|].
  apply (IH _ _ _ G2 P2 (steps_trans _ _ _ _ S0 St2) Hm0); auto; [now rewrite M2|].
  intros x I. destruct (A x) as [cid R]; [apply in_or_app; now right|]. exists cid. now apply N2.
Qed.

Lemma render_reuses y e page ids p h mi m body :
  pgood e page ids p -> owns (a_world (p_app p)) h mi -> nth_error (w_mgrs (a_world (p_app p))) mi = Some m -> plain_body [] body ->
  (forall x, In x (asks [] body) -> exists cid, registered (a_world (p_app p)) mi (mk_key false (m_prefix m) (snd x)) cid) ->
  exists p1 cls pas, render_component y e (Some h) body p = Some (p1, cls, pas).
Proof.
  intros P O Hm Pb A. unfold render_component. destruct (context_manager e (Some h) (p_app p)) as [[a h']|] eqn:C.
  - destruct (frame_starts _ _ _ _ _ _ _ P C) as (mi' & Cx & F). cbn [context_is] in Cx. unfold owns in O. rewrite O in Cx. injection Cx as <-.
    pose proof P as (_ & Ga & _). destruct (context_frame _ _ _ _ _ _ _ Ga C) as (_ & _ & K3 & _).
    destruct (steps_context _ _ _ _ _ C) as (S0 & _). destruct (steps_like _ _ _ _ _ S0 Hm) as (m1 & Hm1 & Ep & _).
    destruct (fg_live _ _ _ _ _ _ F h') as [Hh _]; [now left|]. cbn [f_prog p_app] in Hh.
    destruct (reuse_progress y e page (a_world a) mi m1 body _ _ _ F (plain_starts _ _ _ _ _ _ _ F) (steps_refl _ _) Hm1 (handle_lt _ _ _ Hh) Pb) as [f ->]; [|eauto].
    intros x I. destruct (A x I) as [cid R]. exists cid. rewrite Ep. now apply K3.
  - exfalso. cbn [context_manager] in C. destruct (step e (a_world (p_app p)) (OCloneManager h)) as [w [x| | | | |]] eqn:S; try discriminate;
      cbn [step] in S; unfold clone_manager in S; rewrite O in S; discriminate.
Qed.

(** Loading succeeds if the ids agree. *)
Lemma load_agrees e ids mi (I : key -> str -> Prop) : (forall k i j, I k i -> I k j -> i = j) ->
  forall d w m, core e ids [] w -> nth_error (w_mgrs w) mi = Some m -> m_strong m >= 1 ->
  (forall r, In r d -> In (r_id r) ids) -> (forall r, In r d -> I (r_key r) (r_id r)) ->
  (forall k cid c, registered w mi k cid -> nth_error (w_contents w) cid = Some c -> I k (c_id c)) ->
  exists w1, load_data mi d w = (w1, RDone)
    /\ (forall k cid c, registered w1 mi k cid -> nth_error (w_contents w1) cid = Some c -> I k (c_id c))
    /\ (forall mj k cid, mj <> mi -> registered w1 mj k cid -> registered w mj k cid).
Proof.
  intros Fu. induction d as [|r d IH]; intros w m C Hm Hs Hi Hd A; cbn [load_data]; [eauto|].
  destruct (load_one mi r w) as [w1|] eqn:E.
  - destruct (load_one_spec e ids w mi m r w1 C Hm Hs (Hi r (or_introl eq_refl)) E) as (C1 & (m1 & Hm1 & Hs1) & A1 & A2 & A3 & A4).
    destruct (IH w1 m1 C1 Hm1 Hs1) as (w2 & L & B1 & B2).
    + intros r' J. apply Hi. now right.
    + intros r' J. apply Hd. now right.
    + intros k cid c R Hc. destruct R as (mx & Hmx & J). destruct (o_reg _ _ _ _ C1 _ _ Hmx) as (_ & _ & K). destruct (K _ _ J) as (c' & Hc' & Ek & Em).
      rewrite Hc in Hc'. injection Hc' as <-. destruct (A4 _ _ Hc) as [H|(H1 & H2 & _)]; [|rewrite H1, <- Ek, H2; apply Hd; now left].
      apply (A k cid c); [|exact H]. unfold load_one in E. rewrite Hm in E. destruct (reg_get (m_reg m) (r_key r)) as [cid0|].
      * assert (w1 = w) as -> by (destruct (nth_error (w_contents w) cid0) as [c0|]; [destruct (str_eqb _ _); [|discriminate]|]; now injection E).
        exists mx. auto.
      * injection E as <-. cbn in Hmx. rewrite nth_upd_eq, Hm in Hmx. injection Hmx as <-. cbn in J. apply in_app_or in J. destruct J as [J|[J|[]]].
        -- exists m. auto.
        -- injection J as _ <-. apply nth_lt in H. lia.
    + exists w2. split; auto. split; auto. intros mj k cid N R. apply (B2 mj k cid N) in R. destruct R as (mx & Hmx & J). exists mx. split; auto.
      unfold load_one in E. rewrite Hm in E. destruct (reg_get (m_reg m) (r_key r)) as [cid0|].
      * assert (w1 = w) as -> by (destruct (nth_error (w_contents w) cid0) as [c0|]; [destruct (str_eqb _ _); [|discriminate]|]; now injection E). auto.
      * injection E as <-. cbn in Hmx. now rewrite nth_upd_ne in Hmx by auto.
  - exfalso. unfold load_one in E. rewrite Hm in E. destruct (reg_get (m_reg m) (r_key r)) as [cid|] eqn:G; [|discriminate].
    apply reg_get_in in G. destruct (nth_error (w_contents w) cid) as [c|] eqn:Hc; [|discriminate].
    destruct (str_eqb (c_id c) (r_id r)) eqn:Q; [discriminate|]. assert (X : c_id c = r_id r).
    { eapply Fu; [apply (A (r_key r) cid c); [exists m; auto|exact Hc]|]. apply Hd. now left. }
    rewrite X, str_eqb_refl in Q. discriminate.
Qed.

Section Client.
(* what the server ended with *)
Variables (es : env) (W : world) (ms ms' : list nat) (sm cm : nat -> nat).
Let n := List.length ms.
Hypothesis HW : cored es W.
Hypothesis Hn : List.length ms' = n.
Hypothesis Hsame : forall k k', k < n -> k' < n -> cm k = cm k' -> sm k = sm k'.
(* the browser *)
Variables (y : yew) (e : env) (page : dom).

Definition idof (mi : nat) (k : key) (i : str) : Prop :=
  exists cid c, registered W mi k cid /\ nth_error (w_contents W) cid = Some c /\ c_id c = i.
Lemma idof_fun mi k i j : idof mi k i -> idof mi k j -> i = j.
Proof.
  intros (cid & c & A & B & D) (cid' & c' & A' & B' & D'). rewrite (registered_fun _ _ _ _ _ _ HW A A') in B. congruence.
Qed.
(** What the browser has is what the server had. *)
Definition cons (w : world) : Prop :=
  forall k key cid c, k < n -> registered w (cm k) key cid -> nth_error (w_contents w) cid = Some c -> idof (sm k) key (c_id c).

Fixpoint cgood (w : world) (cur : option nat) (s c : live) : Prop :=
  match s, c with
  | LEnd, LEnd => True
  | LComp b cls ch nx, LComp b' cls' ch' nx' =>
      (b' = b /\ cls' = cls) /\ cgood w cur ch ch' /\ cgood w cur nx nx'
  | LComp b _ ch nx, LCompWait b' v nx' => (b' = b /\ v = sent ch) /\ cgood w cur nx nx'
  | LProvDone k st ch nx, LProv k' v ch' nx' =>
      (k' = k /\ owns w (v_context v) (cm k) /\ forall r, In r st -> exists cid, registered w (cm k) (r_key r) cid)
      /\ cgood w (Some k) ch ch' /\ cgood w cur nx nx'
  | LProvDone k st ch nx, LProvWait k' d v nx' =>
      (k' = k /\ d = Some (map received st) /\ v = sent ch) /\ cgood w cur nx nx'
  | _, _ => False
  end.

Lemma cgood_agrees w : forall s c cur, cgood w cur s c -> agrees s c.
Proof.
  induction s; intros [] cur G; cbn in *; try contradiction; auto.
  - destruct G as ((A & B) & C). split; [auto|eauto].
  - destruct G as ((A & B) & C & D). repeat split; eauto.
  - destruct G as ((A & B & C) & D). split; eauto.
  - destruct G as ((A & B & C) & D & E). split; eauto.
Qed.
Lemma cgood_mono w w' : (forall j mj, owns w j mj -> owns w' j mj) ->
  (forall k key cid, k < n -> registered w (cm k) key cid -> registered w' (cm k) key cid) ->
  forall s c cur cs, sgood ms sm W cs s -> cgood w cur s c -> cgood w' cur s c.
Proof.
  intros O R. induction s as [|b ch nx IHn|b cls ch IHc nx IHn|k d ch nx IHn|k v ch IHc nx IHn|k st ch IHc nx IHn];
    intros c cur cs S G; destruct c; cbn [cgood sgood] in *; try contradiction; auto.
  - destruct S as (_ & _ & S1 & S2). destruct G as (A & B). split; eauto.
  - destruct S as (_ & _ & S1 & S2). destruct G as (A & B & C). split; [auto|split; eauto].
  - destruct S as (_ & _ & _ & S1 & S2). destruct G as (A & B). split; eauto.
  - destruct S as ([S0 _] & _ & _ & S1 & S2). destruct G as ((A & A' & A'') & B & C). split; [|split; eauto]. split; auto. split; auto.
    intros r I. destruct (A'' r I) as [cid X]. exists cid. auto.
Qed.
Lemma cgood_begin w : forall s cs cur, sgood ms sm W cs s -> finished s = true -> cgood w cur s (begin (sent s)).
Proof.
  induction s as [|b ch nx IHn|b cls ch IHc nx IHn|k d ch nx IHn|k v ch IHc nx IHn|k st ch IHc nx IHn];
    intros cs cur S F; cbn [cgood sgood sent begin finished] in *; try discriminate; auto; apply andb_prop in F; destruct F as [F1 F2].
  - split; auto. eapply IHn; eauto. apply S.
  - split; auto. eapply IHn; eauto. apply S.
Qed.

(** The whole state. *)
Record cnode (p : prog) : Prop := mk_cnode
  { cn_good : exists ids, pgood e page ids p;
    cn_ms : forall k h, nth_error ms' k = Some h -> owns (a_world (p_app p)) h (cm k);
    cn_prefix : forall k, k < n -> same_prefix W (sm k) (a_world (p_app p)) (cm k);
    cn_cons : cons (a_world (p_app p)) }.

Definition cctx_ok (w : world) (ctx cur : option nat) (s : live) : Prop :=
  match cur with
  | None => ctx = None
  | Some k => k < n /\ exists h, ctx = Some h /\ owns w h (cm k)
      /\ forall x, In x (asks_of s) -> exists m cid, nth_error (w_mgrs w) (cm k) = Some m /\ registered w (cm k) (mk_key false (m_prefix m) (snd x)) cid
  end.
Lemma cctx_sub w ctx cur s s' : incl (asks_of s') (asks_of s) -> cctx_ok w ctx cur s -> cctx_ok w ctx cur s'.
Proof. intros I. destruct cur as [k|]; cbn; auto. intros (A & h & B & C & D). split; auto. exists h. auto. Qed.

Definition cstepped (p : prog) (p1 : prog) : Prop :=
  cnode p1 /\ w_dom (a_world (p_app p1)) = w_dom (a_world (p_app p)) /\ w_draws (a_world (p_app p1)) = w_draws (a_world (p_app p))
  /\ (forall j mj, owns (a_world (p_app p)) j mj -> owns (a_world (p_app p1)) j mj)
  /\ (forall k key cid, k < n -> registered (a_world (p_app p)) (cm k) key cid -> registered (a_world (p_app p1)) (cm k) key cid).

Lemma prefix_stays w w1 k : steps e w w1 -> same_prefix W (sm k) w (cm k) -> same_prefix W (sm k) w1 (cm k).
Proof.
  intros S (m & m' & A & B & C). destruct (steps_like _ _ _ _ _ S B) as (m1 & B1 & E & _). exists m, m1. split; auto. split; auto. congruence.
Qed.
Lemma client_live p k : cnode p -> k < n -> mlive (a_world (p_app p)) (cm k).
Proof.
  intros N L. destruct (nth_error ms' k) as [h|] eqn:E; [|apply nth_error_None in E; lia]. exists h. eapply cn_ms; eauto.
Qed.

(** A component. *)
Lemma client_comp p ctx k b cls ch nx :
  cnode p -> cctx_ok (a_world (p_app p)) ctx (Some k) (LComp b cls ch nx) -> sgood ms sm W (Some k) (LComp b cls ch nx) ->
  exists p1 pas, render_component y e ctx b p = Some (p1, cls, pas) /\ cstepped p p1.
Proof.
  intros N (Lk & h & -> & O & Av) S. cbn [sgood asks_of] in *. destruct S as ((k' & Ek & _ & F) & Pb & _ & _). injection Ek as <-.
  destruct (cn_good _ N) as [ids P]. pose proof P as (_ & Ga & _). pose proof (good_cored _ _ _ _ _ _ Ga) as Co.
  destruct (cn_prefix _ N k Lk) as (mS & mC & HmS & HmC & Ep).
  assert (Av' : forall x, In x (asks [] b) -> exists cid, registered (a_world (p_app p)) (cm k) (mk_key false (m_prefix mC) (snd x)) cid).
  { intros x I. destruct (Av x) as (m & cid & A & B); [apply in_or_app; auto|]. rewrite HmC in A. injection A as <-. eauto. }
  destruct (render_reuses y e page ids p h (cm k) mC b P O HmC Pb Av') as (p1 & cls1 & pas & R).
  assert (F0 : Forall2 (classes_in (a_world (p_app p)) (cm k)) (asks [] b) cls).
  { clear - F Av' HmS HmC Ep N HW Lk Co. revert Av'. induction F as [|x cl lx lc H1 F IH]; intros Av'; constructor.
    - destruct (Av' x (or_introl eq_refl)) as [cid R]. destruct H1 as (m & cid' & c' & A1 & A2 & A3 & ->). rewrite HmS in A1. injection A1 as <-.
      pose proof R as (mx & Hmx & J). destruct Co as [ids0 Co]. destruct (o_reg _ _ _ _ Co _ _ Hmx) as (_ & _ & K). destruct (K _ _ J) as (c & Hc & _ & _).
      exists mC, cid, c. split; auto. split; auto. split; auto. f_equal.
      pose proof (cn_cons _ N k _ cid c Lk R Hc) as I1. eapply idof_fun; [|exact I1]. exists cid', c'. rewrite Ep. auto.
    - apply IH. intros z I. apply Av'. now right. }
  destruct (reuses_good y e page ids p (Some h) b p1 cls1 pas (cm k) cls P R Pb O F0) as (-> & Dr & (Nd & Nl & Nr)).
  destruct (comp_step _ _ _ _ _ _ _ _ _ _ _ P O Pb R) as (P1 & Ca & Ow & Mh & _).
  exists p1, pas. split; auto. split; [|split; [exact Nd|split; [exact Dr|split; [exact Ow|]]]].
  - split; eauto.
    + intros j hj E. apply Ow. eapply cn_ms; eauto.
    + intros j L. eapply prefix_stays; [eapply calm_steps; exact Ca|]. now apply cn_prefix.
    + intros j key cid c L Rg Hc. apply Nr in Rg. assert (Lc : cid < List.length (w_contents (a_world (p_app p)))) by (rewrite <- Nl; apply nth_error_Some; congruence).
      destruct (nth_error (w_contents (a_world (p_app p))) cid) as [c0|] eqn:H0; [|apply nth_error_None in H0; lia].
      destruct (HookTame.steps_contents any_global _ _ _ _ _ (calm_steps _ _ _ _ Ca) H0) as (c1 & H1 & B). rewrite Hc in H1. injection H1 as <-.
      apply base_fields in B. destruct B as (B & _). rewrite B. apply (cn_cons _ N j key cid c0); auto.
  - intros j key cid L Rg. now apply Nr.
Qed.

(** A provider. *)
Lemma client_prov p k h st :
  cnode p -> k < n -> nth_error ms' k = Some h -> (forall r, In r st -> has_record W (sm k) r) ->
  exists a1 v, provide e h (Some (map received st)) (p_app p) = Some (a1, v) /\ cstepped p (mk_prog a1 (p_cache p))
    /\ owns (a_world a1) (v_context v) (cm k)
    /\ forall r, In r st -> exists cid, registered (a_world a1) (cm k) (r_key r) cid.
Proof.
  intros N Lk Eh Hst. pose proof (cn_ms _ N k h Eh) as O. destruct (cn_good _ N) as [ids P]. pose proof P as (_ & Ga & _).
  set (d := map received st).
  assert (Hd : forall r, In r d -> idof (sm k) (r_key r) (r_id r)).
  { intros r I. apply in_map_iff in I. destruct I as (r0 & <- & I). cbn. destruct (Hst r0 I) as (cid & c & A & B & C). exists cid, c. auto. }
  assert (Ok : exists a1 v, provide e h (Some d) (p_app p) = Some (a1, v)
             /\ forall j key cid c, j < n -> registered (a_world a1) (cm j) key cid -> nth_error (w_contents (a_world a1)) cid = Some c -> idof (sm j) key (c_id c)).
  { unfold provide. destruct (clone_succeeds e _ _ _ O) as (w1 & c1 & E1). rewrite E1. destruct (clone_owns _ _ _ _ _ E1) as (_ & _ & A3 & _).
    destruct (clone_succeeds e w1 h (cm k) (A3 _ _ O)) as (w2 & dep & E2). rewrite E2.
    destruct (clone_handle_spec _ _ _ _ _ _ _ _ _ Ga E1) as (G1 & S1 & B1 & _ & _ & _ & R1 & _).
    destruct (clone_handle_spec _ _ _ _ _ _ _ _ _ G1 E2) as (G2 & S2 & B2 & _ & _ & _ & R2 & _).
    destruct (clone_owns _ _ _ _ _ E2) as (_ & _ & _ & A4). specialize (A4 _ (A3 _ _ O)).
    assert (Rb : forall mj key cid, registered w2 mj key cid -> registered (a_world (p_app p)) mj key cid).
    { assert (Q : forall w w' hh h', clone_handle e hh w = Some (w', h') -> forall mj key cid, registered w' mj key cid -> registered w mj key cid).
      { clear. intros w w' hh h' H mj key cid R. unfold clone_handle in H. cbn [step] in H. unfold clone_manager in H. destruct (handle_of (w_mhandles w) hh) as [mi|]; [|discriminate].
        injection H as <- _. destruct R as (m & Hm & J). cbn in Hm. destruct (Nat.eq_dec mi mj) as [->|Nx].
        - rewrite nth_upd_eq in Hm. destruct (nth_error (w_mgrs w) mj) as [m0|] eqn:E; [|discriminate]. injection Hm as <-. exists m0. auto.
        - rewrite nth_upd_ne in Hm by auto. exists m. auto. }
      intros mj key cid R. eapply Q; [exact E1|]. eapply Q; [exact E2|]. exact R. }
    assert (C3 : core e (ids ++ map r_id d) [] w2).
    { pose proof (good_core _ _ _ _ _ _ G2) as K. eapply core_mono; [|exact K]. intros id I. apply in_app_iff. now left. }
    destruct (core_manager _ _ _ _ _ _ C3 A4) as (m & Hm & Hs).
    destruct (load_agrees e (ids ++ map r_id d) (cm k) (idof (sm k)) (idof_fun (sm k)) d w2 m C3 Hm Hs) as (w3 & L & L1 & L2).
    - intros r I. apply in_app_iff. right. now apply in_map.
    - exact Hd.
    - intros key cid c R Hc. rewrite B2, B1 in Hc. apply (cn_cons _ N k key cid c Lk); auto.
    - cbn [load_state step]. unfold owns in A4. rewrite A4, L. eexists _, _. split; [reflexivity|]. cbn [a_world with_world].
      intros j key cid c Lj R Hc. destruct (Nat.eq_dec (cm j) (cm k)) as [Ej|Nj].
      + rewrite (Hsame j k Lj Lk Ej). rewrite Ej in R. eauto.
      + pose proof (L2 _ _ _ Nj R) as R0. assert (Rp := Rb _ _ _ R0). pose proof R0 as (mx & Hmx & J). destruct (o_reg _ _ _ _ C3 _ _ Hmx) as (_ & _ & K). destruct (K _ _ J) as (c0 & Hc0 & _ & _).
        destruct (load_data_spec e (ids ++ map r_id d) (cm k) d w2 m w3 C3 Hm Hs) as (_ & K2 & _); auto. { intros r I. apply in_app_iff. right. now apply in_map. }
        rewrite (K2 _ _ Hc0) in Hc. injection Hc as <-. rewrite B2, B1 in Hc0. apply (cn_cons _ N j key cid c0 Lj); auto. }
  destruct Ok as (a1 & v & E & Cs). exists a1, v. split; auto.
  destruct (prov_step _ _ _ _ _ _ _ _ P E) as ((ids' & P1 & _) & St & _ & Ow & Mh & Ov & _). destruct (Ov _ O) as [O1 O2].
  destruct (provide_spec _ _ _ _ _ _ _ _ Ga E) as (mi & Hh & _ & _ & _ & _ & S & D1 & D2 & _ & _ & Rr & _). unfold owns in O. rewrite O in Hh. injection Hh as <-.
  split; [|split; [exact O1|]].
  - split; [|split; [exact D1|split; [exact D2|split; [exact Ow|]]]].
    + split; eauto.
      * intros j hj Ej. apply Ow. eapply cn_ms; eauto.
      * intros j L. eapply prefix_stays; [exact S|]. now apply cn_prefix.
    + intros j key cid L R. destruct (HookTame.keep_steps (fun _ _ => False) e _ _ (cm j) key cid St (good_cored _ _ _ _ _ _ Ga)) as [|[_ D]]; auto.
      destruct (client_live p j N L) as [hj Hj]. elim (D hj). apply Ow, Hj.
  - intros r I. destruct (Rr (received r)) as (cid & c & R & _); [now apply in_map|]. eauto.
Qed.

(** One step. *)
Lemma cstep_tree : forall s c ctx cur path p,
  cnode p -> cctx_ok (a_world (p_app p)) ctx cur s -> sgood ms sm W cur s -> finished s = true -> cgood (a_world (p_app p)) cur s c ->
  match lstep y e false ms' ctx path c p with
  | LPanic => False
  | LIdle => True
  | LNext p1 c1 => cstepped p p1 /\ cgood (a_world (p_app p1)) cur s c1
  end.
Proof.
  assert (Up : forall p p1 s c cur, cstepped p p1 -> sgood ms sm W cur s -> cgood (a_world (p_app p)) cur s c -> cgood (a_world (p_app p1)) cur s c).
  { intros p p1 s c cur (_ & _ & _ & O & R) S G. eapply cgood_mono; eauto. }
  induction s as [|b ch nx IHn|b cls ch IHc nx IHn|k d ch nx IHn|k v ch IHc nx IHn|k st ch IHc nx IHn];
    intros c ctx cur path p N Cx S F G; try discriminate F.
  - destruct c; cbn in G; try contradiction. destruct path as [|[|] path]; exact I.
  - cbn [finished] in F. apply andb_prop in F. destruct F as [F1 F2].
    assert (Cc : cctx_ok (a_world (p_app p)) ctx cur ch) by (eapply cctx_sub; [|exact Cx]; cbn [asks_of]; apply incl_appr, incl_appl, incl_refl).
    assert (Cn : cctx_ok (a_world (p_app p)) ctx cur nx) by (eapply cctx_sub; [|exact Cx]; cbn [asks_of]; apply incl_appr, incl_appr, incl_refl).
    pose proof S as S0. cbn [sgood] in S. destruct S as ((k & Ek & _ & _) & Pb & S1 & S2).
    destruct c as [|b' v nx'|b' cls' ch' nx'|k' d' v nx'|k' v ch' nx'|k' st' ch' nx']; cbn [cgood] in G; try contradiction.
    + destruct G as ((-> & ->) & G2). destruct path as [|[|] path]; cbn [lstep]; [| exact I|].
      * subst cur. destruct (client_comp p ctx k b cls ch nx N Cx S0) as (p1 & pas & R & St). rewrite R. split; auto. cbn [cgood].
        split; auto. split; [eapply cgood_begin; eauto|eauto].
      * specialize (IHn nx' ctx cur path p N Cn S2 F2 G2). destruct (lstep y e false ms' ctx path nx' p) as [p1 c1| |]; cbn [lmap]; auto.
        destruct IHn as [A B]. split; auto. cbn [cgood]. auto.
    + destruct G as ((-> & ->) & G1 & G2). destruct path as [|[|] path]; cbn [lstep]; [exact I| |].
      * specialize (IHc ch' ctx cur path p N Cc S1 F1 G1). destruct (lstep y e false ms' ctx path ch' p) as [p1 c1| |]; cbn [lmap]; auto.
        destruct IHc as [A B]. split; auto. cbn [cgood]. split; auto. split; auto. eauto.
      * specialize (IHn nx' ctx cur path p N Cn S2 F2 G2). destruct (lstep y e false ms' ctx path nx' p) as [p1 c1| |]; cbn [lmap]; auto.
        destruct IHn as [A B]. split; auto. cbn [cgood]. split; auto. split; eauto.
  - cbn [finished] in F. apply andb_prop in F. destruct F as [F1 F2].
    assert (Cn : cctx_ok (a_world (p_app p)) ctx cur nx) by (eapply cctx_sub; [|exact Cx]; cbn [asks_of]; apply incl_refl).
    cbn [sgood] in S. destruct S as ([Lk _] & Hr & Hc & S1 & S2).
    destruct c as [|b' v nx'|b' cls' ch' nx'|k' d' v nx'|k' v ch' nx'|k' st' ch' nx']; cbn [cgood] in G; try contradiction.
    + destruct G as ((-> & -> & ->) & G2). destruct path as [|[|] path]; cbn [lstep]; [| exact I|].
      * destruct (nth_error ms' k) as [h|] eqn:Eh; [|exact I].
        destruct (client_prov p k h st N Lk Eh Hr) as (a1 & v & E & St & O & Rg). rewrite E. split; auto. cbn [cgood p_app].
        split; auto. split; [eapply cgood_begin; eauto|]. apply (Up _ _ _ _ _ St S2 G2).
      * specialize (IHn nx' ctx cur path p N Cn S2 F2 G2). destruct (lstep y e false ms' ctx path nx' p) as [p1 c1| |]; cbn [lmap]; auto.
        destruct IHn as [A B]. split; auto. cbn [cgood]. auto.
    + destruct G as ((-> & O & Rg) & G1 & G2). destruct path as [|[|] path]; cbn [lstep].
      * destruct (false && finished ch') eqn:X; [discriminate|exact I].
      * assert (Cc : cctx_ok (a_world (p_app p)) (Some (v_context v)) (Some k) ch).
        { split; auto. exists (v_context v). split; auto. split; auto. intros x I. destruct (Hc x I) as (m & r & Hm & Ir & Er).
          destruct (cn_prefix _ N k Lk) as (mS & mC & HmS & HmC & Ep). rewrite Hm in HmS. injection HmS as <-.
          destruct (Rg r Ir) as [cid R]. exists mC, cid. split; auto. now rewrite Ep, <- Er. }
        specialize (IHc ch' _ _ path p N Cc S1 F1 G1). destruct (lstep y e false ms' (Some (v_context v)) path ch' p) as [p1 c1| |]; cbn [lmap]; auto.
        destruct IHc as [A B]. split; auto. cbn [cgood]. split; [|split; [auto|eauto]]. destruct A as (_ & _ & _ & A4 & A5). split; auto. split; auto.
        intros r I. destruct (Rg r I) as [cid R]. exists cid. auto.
      * specialize (IHn nx' ctx cur path p N Cn S2 F2 G2). destruct (lstep y e false ms' ctx path nx' p) as [p1 c1| |]; cbn [lmap]; auto.
        destruct IHn as [A B]. split; auto. cbn [cgood]. split; [|split; [|auto]].
        -- destruct A as (_ & _ & _ & A4 & A5). split; auto. split; auto. intros r I. destruct (Rg r I) as [cid R]. exists cid. auto.
        -- eauto.
Qed.

Lemma crun_tree s : sgood ms sm W None s -> finished s = true -> forall sch c p,
  cnode p -> cgood (a_world (p_app p)) None s c ->
  exists p1 c1, lrun y e false ms' None sch c p = LNext p1 c1 /\ cnode p1 /\ cgood (a_world (p_app p1)) None s c1
    /\ w_dom (a_world (p_app p1)) = w_dom (a_world (p_app p)) /\ w_draws (a_world (p_app p1)) = w_draws (a_world (p_app p)).
Proof.
  intros S F. induction sch as [|path sch IH]; intros c p N G; cbn [lrun]; [exists p, c; auto|].
  pose proof (cstep_tree s c None None path p N eq_refl S F G) as H. destruct (lstep y e false ms' None path c p) as [p1 c1| |]; [|contradiction|auto].
  destruct H as [(N1 & D1 & D2 & _) G1]. destruct (IH c1 p1 N1 G1) as (p2 & c2 & R & N2 & G2 & E1 & E2). exists p2, c2. split; auto. split; auto. split; auto. split; congruence.
Qed.

Lemma client_not_stuck : forall s c w ctx cur p, sgood ms sm W cur s -> cgood w cur s c -> all_shown c = false ->
  exists path, lstep y e false ms' ctx path c p <> LIdle.
Proof.
  assert (Sub : forall (f : live -> live) r, r <> LIdle -> lmap f r <> LIdle) by (intros f [ | |]; cbn; congruence).
  induction s as [|b ch nx IHn|b cls ch IHc nx IHn|k d ch nx IHn|k v ch IHc nx IHn|k st ch IHc nx IHn];
    intros c w ctx cur p S G F; destruct c as [|b' v' nx'|b' cls' ch' nx'|k' d' v' nx'|k' v' ch' nx'|k' st' ch' nx'];
    cbn [cgood sgood all_shown] in *; try contradiction; try discriminate.
  - exists []. cbn [lstep]. destruct (render_component y e ctx b' p) as [[[p2 cls'] pas]|]; discriminate.
  - destruct S as (_ & _ & S1 & S2). destruct G as (_ & G1 & G2). destruct (all_shown ch') eqn:Fc; cbn in F.
    + destruct (IHn _ _ ctx _ p S2 G2 F) as [path H]. exists (false :: path). cbn [lstep]. auto.
    + destruct (IHc _ _ ctx _ p S1 G1 Fc) as [path H]. exists (true :: path). cbn [lstep]. auto.
  - destruct S as ([Lk _] & _). destruct G as ((-> & _) & _). exists []. cbn [lstep].
    destruct (nth_error ms' k) as [h|] eqn:E; [|apply nth_error_None in E; lia]. destruct (provide e h d' (p_app p)) as [[a1 v1]|]; discriminate.
  - destruct S as (_ & _ & _ & S1 & S2). destruct G as (_ & G1 & G2). destruct (all_shown ch') eqn:Fc; cbn in F.
    + destruct (IHn _ _ ctx _ p S2 G2 F) as [path H]. exists (false :: path). cbn [lstep]. auto.
    + destruct (IHc _ _ (Some (v_context v')) _ p S1 G1 Fc) as [path H]. exists (true :: path). cbn [lstep]. auto.
Qed.
Lemma client_finishes s : sgood ms sm W None s -> finished s = true -> forall c p, cnode p -> cgood (a_world (p_app p)) None s c ->
  exists sch p1 c1, lrun y e false ms' None sch c p = LNext p1 c1 /\ all_shown c1 = true.
Proof.
  intros S F c. remember (left_to_do c) as q eqn:Eq. revert c Eq. induction q as [|q IH]; intros c Eq p N G;
    (destruct (all_shown c) eqn:A; [exists [], p, c; auto|]);
    destruct (client_not_stuck s c _ None None p S G A) as [path H];
    pose proof (cstep_tree s c None None path p N eq_refl S F G) as T;
    destruct (lstep y e false ms' None path c p) as [p2 c2| |] eqn:E; try congruence; try contradiction.
  - apply step_pending in E. destruct E as [_ E]. lia.
  - pose proof E as E2. apply step_pending in E2. destruct E2 as [_ E2]. destruct T as [(N1 & _) G1].
    destruct (IH c2 ltac:(lia) p2 N1 G1) as (sch & p1 & c1 & R & A1). exists (path :: sch), p1, c1. cbn [lrun]. rewrite E. auto.
Qed.
End Client.
