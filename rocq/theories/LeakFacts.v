(** * LeakFacts: elements that [unmount] cannot find stay. *)

From Coq Require Import String Ascii List NArith Bool Arith Lia.
From Verif Require Import Str StrFacts Ast Render Ids CssParser Manager SpecManager ManagerFacts ManagerInv
  ManagerSteps ManagerCore HookFacts HookOnce.
Import ListNotations.
Local Open Scope list_scope.

(** The element is a child of the container [k]. *)
Definition present (d : dom) (k : nat) (id text : str) : Prop :=
  exists n, nth_error d k = Some n /\ In (EStyle id text) (n_children n).
(** [document.querySelector] does not find such an element. *)
Definition hidden (page : dom) (k : nat) (id : str) : Prop :=
  ~ in_document page k \/ plain_ident id = false.
(** Containers stay in, or out of, the document. *)
Definition same_shape (d d' : dom) : Prop := map n_in_document d' = map n_in_document d.

Lemma shape_in_document d d' k : same_shape d d' -> in_document d' k -> in_document d k.
Proof.
  intros S (n & H & I). assert (E : nth_error (map n_in_document d') k = Some true) by (rewrite nth_error_map, H; cbn; now rewrite I).
  rewrite S, nth_error_map in E. destruct (nth_error d k) as [x|] eqn:Ex; [|discriminate]. cbn in E. injection E as E. exists x. auto.
Qed.
Lemma shape_upd d k f : (forall n, n_in_document (f n) = n_in_document n) -> same_shape d (upd d k f).
Proof.
  intros F. unfold same_shape. revert k. induction d as [|n d IH]; intros [|k]; cbn; auto; f_equal; auto.
Qed.
Lemma shape_remove id d : same_shape d (remove_first id d).
Proof.
  unfold same_shape. induction d as [|n d IH]; cbn; auto. destruct (n_in_document n && _) eqn:E; cbn; f_equal; auto.
Qed.
Lemma shape_unmount e id d : same_shape d (unmount e id d).
Proof. unfold unmount. destruct (_ && _ && _); [apply shape_remove|reflexivity]. Qed.

(** What a step does to what is hidden. *)
Definition keeps_hidden (d d' : dom) : Prop :=
  same_shape d d' /\ forall k id text, hidden d k id -> present d k id text -> present d' k id text.
Lemma keeps_refl d : keeps_hidden d d.
Proof. split; [reflexivity|auto]. Qed.
Lemma hidden_shape d d' k id : same_shape d d' -> hidden d k id -> hidden d' k id.
Proof. intros S [H|H]; [left|right; exact H]. intros I. apply H. eapply shape_in_document; eauto. Qed.
Lemma keeps_trans a b c : keeps_hidden a b -> keeps_hidden b c -> keeps_hidden a c.
Proof.
  intros [A1 A2] [B1 B2]. split; [unfold same_shape in *; congruence|]. intros k id text H P. apply B2; [eapply hidden_shape; eauto|]. now apply A2.
Qed.
Lemma remove_child_other id i t l : i <> id -> In (EStyle i t) l -> In (EStyle i t) (remove_child id l).
Proof.
  intros N. induction l as [|c l IH]; cbn; auto. intros [->|I].
  - cbn. destruct (str_eqb i id) eqn:E; [apply str_eqb_eq in E; congruence|now left].
  - destruct (is_elem id c); auto. right. auto.
Qed.
Lemma keeps_unmount e id d : keeps_hidden d (unmount e id d).
Proof.
  split; [apply shape_unmount|]. intros k i t H P. unfold unmount. destruct (e_wasm e && e_document e && plain_ident id) eqn:G; [|exact P].
  apply andb_prop in G. destruct G as [_ Pl]. revert k H P. induction d as [|n d IH]; intros k H P; [exact P|]. cbn [remove_first].
  destruct P as (x & Hx & Ix). destruct (n_in_document n && existsb (is_elem id) (n_children n)) eqn:G.
  - destruct k as [|k]; [|exists x; auto]. cbn in Hx. injection Hx as ->. exists (set_children (remove_child id (n_children x)) x). split; [reflexivity|].
    cbn. apply remove_child_other; auto. intros ->. destruct H as [H|H]; [|congruence]. apply H. exists x. split; [reflexivity|]. now apply andb_prop in G.
  - destruct k as [|k]; [exists x; auto|]. cbn in Hx. destruct (IH k) as (y & Hy & Iy).
    + destruct H as [H|H]; [left|right; exact H]. intros (z & Hz & Iz). apply H. exists z. auto.
    + exists x. auto.
    + exists y. auto.
Qed.
Lemma keeps_upd d k f : (forall n, n_in_document (f n) = n_in_document n) ->
  (forall n i t, In (EStyle i t) (n_children n) -> In (EStyle i t) (n_children (f n))) -> keeps_hidden d (upd d k f).
Proof.
  intros F1 F2. split; [now apply shape_upd|]. intros j i t _ (n & H & I). unfold present. rewrite nth_upd.
  destruct (Nat.eqb_spec k j) as [->|]; rewrite H; cbn; eexists; split; eauto.
Qed.
Lemma insert_other_in i t l pos : In (EStyle i t) l -> In (EStyle i t) (insert_at l pos EOther).
Proof. revert l. induction pos as [|pos IH]; intros [|y l] I; cbn in *; auto. destruct I; auto. Qed.
Lemma remove_other_in i t l pos : In (EStyle i t) l -> In (EStyle i t) (remove_other l pos).
Proof.
  revert pos. induction l as [|y l IH]; intros pos I; [destruct I|]. destruct pos as [|pos].
  - destruct y; cbn; auto. destruct I as [E|I]; [discriminate|exact I].
  - destruct y; cbn [remove_other]; (destruct I as [E|I]; [left; exact E|right; auto]).
Qed.
Lemma keeps_mount e m id text d d' : mount e m id text d = Some d' -> keeps_hidden d d'.
Proof.
  unfold mount. destruct (negb (e_wasm e)); [intros [= <-]; apply keeps_refl|]. destruct (negb (e_document e)); [discriminate|].
  destruct (m_container m) as [k|]; [|discriminate]. destruct (nth_error d k) as [n|] eqn:Hn; [|discriminate].
  destruct (negb (m_append m) && _); [discriminate|]. destruct (n_accepts n); [|discriminate]. intros [= <-].
  split.
  - unfold same_shape. revert k Hn. induction d as [|y d IH]; intros [|k] Hn; cbn in *; try discriminate; f_equal; auto.
  - intros j i t _ (x & Hx & Ix). unfold present. rewrite nth_upd. destruct (Nat.eqb_spec k j) as [->|]; rewrite Hx; cbn; eexists; split; eauto.
    rewrite Hn in Hx. injection Hx as ->. cbn. apply in_or_app. now left.
Qed.
Lemma mount_present e m id text d d' k : e_wasm e = true -> m_container m = Some k -> mount e m id text d = Some d' -> present d' k id text.
Proof.
  intros W K. unfold mount. rewrite W, K. cbn [negb]. destruct (negb (e_document e)); [discriminate|].
  destruct (nth_error d k) as [n|] eqn:Hn; [|discriminate]. destruct (negb (m_append m) && _); [discriminate|]. destruct (n_accepts n); [|discriminate].
  intros [= <-]. unfold present. rewrite nth_upd_eq, Hn. cbn. eexists. split; [reflexivity|]. cbn. apply in_or_app. right. now left.
Qed.

(** Releasing. *)
Lemma keeps_release e cid w : keeps_hidden (w_dom w) (w_dom (release e cid w)).
Proof.
  unfold release. destruct (nth_error (w_contents w) cid) as [c|]; [|apply keeps_refl]. cbv zeta.
  destruct (Nat.eqb _ 0 && _); [|apply keeps_refl]. cbn. apply keeps_unmount.
Qed.
Lemma keeps_release_all e l : forall w, keeps_hidden (w_dom w) (w_dom (release_all e l w)).
Proof.
  induction l as [|cid l IH]; intros w; [apply keeps_refl|]. change (release_all e (cid :: l) w) with (release_all e l (release e cid w)).
  eapply keeps_trans; [apply keeps_release|apply IH].
Qed.
Lemma load_data_dom mi l : forall w, w_dom (fst (load_data mi l w)) = w_dom w.
Proof.
  induction l as [|r l IH]; intros w; [reflexivity|]. cbn [load_data]. destruct (load_one mi r w) as [w1|] eqn:E; [|reflexivity]. rewrite IH.
  unfold load_one in E. destruct (nth_error (w_mgrs w) mi) as [x|]; [|now injection E as <-].
  destruct (reg_get _ _) as [c|]; [destruct (nth_error _ c); [destruct (str_eqb _ _); [|discriminate]|]; now injection E as <-|now injection E as <-].
Qed.
Lemma keeps_step e w o : keeps_hidden (w_dom w) (w_dom (fst (step e w o))).
Proof.
  destruct o; cbn [step].
  - unfold build. destruct (e_wasm e); [|apply keeps_refl]. destruct cont; [apply keeps_refl|].
    destruct (e_document e); [|apply keeps_refl]. destruct (e_head e); apply keeps_refl.
  - unfold clone_manager. destruct (handle_of _ _); apply keeps_refl.
  - unfold drop_manager. destruct (handle_of _ _); [|apply keeps_refl]. destruct (nth_error _ _); [|apply keeps_refl]. cbv zeta.
    destruct (Nat.eqb _ 0); [|apply keeps_refl]. cbn [fst].
    match goal with |- keeps_hidden _ (w_dom (release_all e ?l ?x)) => exact (keeps_release_all e l x) end.
  - destruct (handle_of (w_mhandles w) h) as [mi|]; [|apply keeps_refl]. unfold get_or_register.
    destruct (nth_error _ mi) as [m|]; [|apply keeps_refl]. destruct (reg_get _ _); [apply keeps_refl|]. cbv zeta.
    destruct (_ && _); [apply keeps_refl|]. destruct (m_data m); [apply keeps_refl|].
    destruct (mount _ _ _ _ _) as [d|] eqn:M; cbn; [eapply keeps_mount; exact M|apply keeps_unmount].
  - unfold clone_style. destruct (handle_of _ _); apply keeps_refl.
  - unfold drop_style. destruct (handle_of _ _); [|apply keeps_refl]. cbn [fst].
    match goal with |- keeps_hidden _ (w_dom (release e ?l ?x)) => exact (keeps_release e l x) end.
  - unfold unregister_style. destruct (handle_of (w_handles w) h) as [n|]; [|apply keeps_refl].
    destruct (nth_error (w_contents w) n) as [x|]; [|apply keeps_refl]. destruct (nth_error (w_mgrs w) (c_mgr x)) as [m|]; [|apply keeps_refl].
    destruct (Nat.eqb _ _); [apply keeps_refl|]. destruct (reg_remove _ _) as [r [q|]]; [|apply keeps_refl]. cbn [fst].
    match goal with |- keeps_hidden _ (w_dom (release e ?l ?x)) => exact (keeps_release e l x) end.
  - destruct (handle_of (w_mhandles w) h) as [mi|]; [|apply keeps_refl]. rewrite load_data_dom. apply keeps_refl.
  - destruct (handle_of (w_mhandles w) h); apply keeps_refl.
  - apply keeps_upd; [reflexivity|]. intros c i t. apply insert_other_in.
  - apply keeps_upd; [reflexivity|]. intros c i t. apply remove_other_in.
Qed.

(** A manager that mounts now has always mounted. *)
Definition as_static (m m' : mgr) : Prop := m_container m' = m_container m /\ (m_data m' = None <-> m_data m = None).
Lemma as_static_refl m : as_static m m. Proof. split; [reflexivity|tauto]. Qed.
Lemma as_static_upd l i f mi m :
  (forall x, as_static x (f x)) -> nth_error l mi = Some m -> exists m', nth_error (upd l i f) mi = Some m' /\ as_static m m'.
Proof. intros F H. rewrite nth_upd. destruct (Nat.eqb_spec i mi) as [->|]; rewrite H; cbn; eexists; split; eauto using as_static_refl. Qed.
Lemma load_static mi l : forall w mj m,
  nth_error (w_mgrs w) mj = Some m -> exists m', nth_error (w_mgrs (fst (load_data mi l w))) mj = Some m' /\ as_static m m'.
Proof.
  induction l as [|r l IH]; intros w mj m H; [exists m; split; [exact H|apply as_static_refl]|]. cbn [load_data].
  destruct (load_one mi r w) as [w1|] eqn:E; [|exists m; split; [exact H|apply as_static_refl]].
  assert (G : exists m', nth_error (w_mgrs w1) mj = Some m' /\ as_static m m').
  { unfold load_one in E. destruct (nth_error (w_mgrs w) mi) as [x|]; [|injection E as <-; exists m; split; [exact H|apply as_static_refl]].
    destruct (reg_get _ _) as [c|].
    - destruct (nth_error _ c); [destruct (str_eqb _ _); [|discriminate]|]; injection E as <-; exists m; split; auto using as_static_refl.
    - injection E as <-. cbn. apply as_static_upd; auto. intros y. split; [reflexivity|cbn; tauto]. }
  destruct G as (m1 & H1 & L1). destruct (IH w1 mj m1 H1) as (m2 & H2 & L2). exists m2. split; auto.
  destruct L1 as [A1 A2], L2 as [B1 B2]. split; [congruence|tauto].
Qed.
Lemma step_static e w o mi m :
  nth_error (w_mgrs w) mi = Some m -> exists m', nth_error (w_mgrs (fst (step e w o))) mi = Some m' /\ as_static m m'.
Proof.
  intros H. assert (Z : exists m', nth_error (w_mgrs w) mi = Some m' /\ as_static m m') by (exists m; split; auto using as_static_refl).
  assert (U : forall i f, (forall x, as_static x (f x)) -> exists m', nth_error (upd (w_mgrs w) i f) mi = Some m' /\ as_static m m')
    by (intros; now apply as_static_upd).
  destruct o; cbn [step]; auto.
  - assert (G : forall x, exists m', nth_error (w_mgrs w ++ [x]) mi = Some m' /\ as_static m m')
      by (intros x; exists m; split; auto using as_static_refl, nth_app_old).
    unfold build. destruct (e_wasm e); [|apply G]. destruct cont; [apply G|].
    destruct (e_document e); [|auto]. destruct (e_head e); [apply G|auto].
  - unfold clone_manager. destruct (handle_of _ _); [|auto]. cbn. apply U. intros y. split; [reflexivity|cbn; tauto].
  - unfold drop_manager. destruct (handle_of _ _) as [mj|]; [|auto].
    destruct (nth_error (w_mgrs w) mj) as [x|]; [|auto]. cbv zeta. destruct (Nat.eqb _ _); cbn [fst].
    + match goal with |- exists m', nth_error (w_mgrs (release_all e ?l ?x)) _ = _ /\ _ =>
        destruct (release_all_frame e l x) as (_ & -> & _) end. cbn. apply U. intros y. split; [reflexivity|cbn; tauto].
    + cbn. apply U. intros y. split; [reflexivity|cbn; tauto].
  - destruct (handle_of (w_mhandles w) h) as [mj|]; [|auto].
    unfold get_or_register. destruct (nth_error (w_mgrs w) mj) as [x|] eqn:Hx; [|auto].
    destruct (reg_get _ _) as [c|]; [auto|]. cbv zeta. destruct (_ && _); [auto|].
    destruct (m_data x) eqn:D.
    + cbn. rewrite upd_upd, nth_upd. destruct (Nat.eqb_spec mj mi) as [->|]; rewrite H; cbn; eexists; split; eauto using as_static_refl.
      rewrite Hx in H. injection H as ->. split; [reflexivity|]. cbn. rewrite D. split; discriminate.
    + destruct (mount _ _ _ _ _); [|auto]. cbn. apply U. intros y. split; [reflexivity|cbn; tauto].
  - unfold clone_style. destruct (handle_of _ _) as [c|]; auto.
  - unfold drop_style. destruct (handle_of _ _) as [c|]; auto. cbn [fst].
    match goal with |- context [release e ?l ?x] => destruct (release_frame e l x) as (_ & -> & _) end. exact Z.
  - unfold unregister_style. destruct (handle_of (w_handles w) h) as [n|]; [|auto].
    destruct (nth_error (w_contents w) n) as [x|]; [|auto]. destruct (nth_error (w_mgrs w) (c_mgr x)) as [y|]; [|auto].
    destruct (Nat.eqb _ _); [auto|]. destruct (reg_remove _ _) as [r [q|]]; cbn [fst].
    + match goal with |- context [release e ?l ?x] => destruct (release_frame e l x) as (_ & -> & _) end. cbn. apply U. intros z. split; [reflexivity|cbn; tauto].
    + cbn. apply U. intros z. split; [reflexivity|cbn; tauto].
  - destruct (handle_of (w_mhandles w) h) as [mj|]; auto. now apply load_static.
  - destruct (handle_of (w_mhandles w) h); auto.
Qed.

(** A content that was not there before: loaded, or of a manager that collects, or mounted. *)
Lemma new_content e w o cid c : nth_error (w_contents (fst (step e w o))) cid = Some c ->
  (exists c0, nth_error (w_contents w) cid = Some c0 /\ base c0 = base c)
  \/ c_hydrated c = true
  \/ exists m, nth_error (w_mgrs w) (c_mgr c) = Some m
       /\ (m_data m <> None \/ mount e m (c_id c) (c_text c) (w_dom w) = Some (w_dom (fst (step e w o)))).
Proof.
  intros H. destruct (makes o) eqn:Mk.
  2:{ left. destruct (base_nth _ _ _ _ (quiet_base e w o Mk) H) as (c0 & H0 & B). eauto. }
  destruct o; try discriminate; cbn [step] in *.
  - destruct (handle_of (w_mhandles w) h) as [mi|]; [|left; eauto]. unfold get_or_register in *.
    destruct (nth_error (w_mgrs w) mi) as [m|] eqn:Hm; [|left; eauto]. destruct (reg_get _ _) as [x|].
    { left. cbn in H. destruct (base_nth _ _ _ _ (base_upd_retain (w_contents w) x) H) as (c0 & H0 & B). eauto. }
    cbv zeta in *. destruct (e_debug e && _); [left; eauto|]. destruct (m_data m) as [l|] eqn:D.
    + cbn in H. apply nth_app_inv in H. destruct H as [H|[-> ->]]; [left; eauto|]. right. right. exists m. cbn. split; [exact Hm|left; congruence].
    + destruct (mount _ _ _ _ _) as [d|] eqn:M; [|left; eauto]. cbn in H. apply nth_app_inv in H. destruct H as [H|[-> ->]]; [left; eauto|].
      right. right. exists m. cbn. split; [exact Hm|right; exact M].
  - destruct (handle_of (w_mhandles w) h) as [mi|]; [|left; eauto].
    enough (G : (exists c0, nth_error (w_contents w) cid = Some c0 /\ base c0 = base c) \/ c_hydrated c = true) by tauto.
    clear Mk. revert w H. induction d as [|r l IH]; intros w H; [left; eauto|]. cbn [load_data] in H.
    destruct (load_one mi r w) as [w1|] eqn:E; [|left; eauto]. destruct (IH w1 H) as [(c0 & H0 & B)|]; [|auto].
    unfold load_one in E. destruct (nth_error (w_mgrs w) mi) as [x|]; [|injection E as <-; eauto].
    destruct (reg_get _ _) as [q|]; [destruct (nth_error _ q); [destruct (str_eqb _ _); [|discriminate]|]; injection E as <-; eauto|].
    injection E as <-. cbn in H0. apply nth_app_inv in H0. destruct H0 as [H0|[-> ->]]; [left; eauto|].
    right. apply base_fields in B. destruct B as (_ & _ & _ & _ & B). rewrite <- B. reflexivity.
Qed.

(** An element that cannot be found is there from its creation on, for ever. *)
Definition stuck (e : env) (w : world) : Prop := forall cid c k,
  nth_error (w_contents w) cid = Some c -> mounts_into w c k -> hidden (w_dom w) k (c_id c) -> present (w_dom w) k (c_id c) (c_text c).
Lemma stuck_step e ids w o : e_wasm e = true -> core e ids [] w -> stuck e w -> stuck e (fst (step e w o)).
Proof.
  intros W Co S cid c k Hc (Hy & m' & Hm' & Md & Mk) Hi. destruct (keeps_step e w o) as [Sh Kp].
  assert (Hi0 : hidden (w_dom w) k (c_id c)) by (eapply hidden_shape; [unfold same_shape in *; symmetry; exact Sh|exact Hi]).
  destruct (new_content e w o cid c Hc) as [(c0 & H0 & B)|[Hh|(m & Hm & Q)]].
  - apply base_fields in B. destruct B as (B1 & B2 & B3 & B4 & B5). rewrite <- B1, <- B3. apply Kp; [now rewrite B1|].
    apply (S cid c0 k H0); [|now rewrite B1]. split; [congruence|]. destruct (o_content _ _ _ _ Co _ _ H0) as [L _].
    destruct (nth_error (w_mgrs w) (c_mgr c0)) as [m|] eqn:Hm; [|apply nth_error_None in Hm; lia].
    destruct (step_static e w o _ _ Hm) as (m2 & H2 & A1 & A2). rewrite B4 in H2. rewrite Hm' in H2. injection H2 as <-.
    exists m. split; [reflexivity|]. split; [tauto|congruence].
  - congruence.
  - destruct (step_static e w o _ _ Hm) as (m2 & H2 & A1 & A2). rewrite Hm' in H2. injection H2 as <-.
    destruct Q as [Q|Q]; [tauto|]. eapply mount_present; [exact W| |exact Q]. congruence.
Qed.
Lemma shape_run e l w : same_shape (w_dom w) (w_dom (fst (run e w l))).
Proof.
  revert w. induction l as [|o l IH]; intros w; [reflexivity|]. rewrite run_cons. unfold same_shape in *. rewrite IH. apply (keeps_step e w o).
Qed.
Lemma stuck_reached e page l w : e_wasm e = true -> reaches e page l w ->
  stuck e w /\ same_shape page (w_dom w).
Proof.
  intros W R. pose proof R as (rs & Er). assert (E : w = fst (run e (start page) l)) by now rewrite Er. split.
  - rewrite E. refine (run_ind e (loaded_ids l) (stuck e) (fun _ => true) l (start page) _ _ _ _ _).
    + intros w0 o Co _. now apply stuck_step with (ids := loaded_ids l).
    + pose proof (reaches_core e page [] (start page)) as C. eapply core_mono; [|apply C; exists []; reflexivity]. intros x [].
    + auto.
    + clear. induction l; auto.
    + intros cid c k H. destruct cid; discriminate.
  - rewrite E. apply shape_run.
Qed.
