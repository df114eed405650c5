(** * HookFacts: components keep their handles, and what they hold is what the document shows. *)

From Coq Require Import String Ascii List NArith Bool Arith Lia Permutation.
From Verif Require Import Str StrFacts Ast Render CssParser Ids IdFacts Manager SpecManager
  ManagerFacts ManagerInv ManagerSteps ManagerCore ManagerProps Hydrate Hooks.
Import ListNotations.
Local Open Scope list_scope.
Local Opaque parse to_style_str.

(** ** What a step does to handles and managers *)

Lemma reaches_step e page l w o : reaches e page l w -> reaches e page (l ++ [o]) (fst (step e w o)).
Proof.
  intros [rs R]. exists (snd (run e (start page) (l ++ [o]))).
  rewrite (surjective_pairing (run e (start page) (l ++ [o]))). cbn [snd]. f_equal.
  rewrite run_app, R. cbn [fst]. rewrite run_cons. reflexivity.
Qed.

Lemma load_data_handles mi l w :
  w_handles (fst (load_data mi l w)) = w_handles w /\ w_mhandles (fst (load_data mi l w)) = w_mhandles w.
Proof.
  revert w. induction l as [|r l IH]; intros w; [auto|]. cbn [load_data].
  destruct (load_one mi r w) as [w1|] eqn:E; [|auto]. destruct (IH w1) as [-> ->].
  unfold load_one in E. destruct (nth_error (w_mgrs w) mi) as [m|]; [|now injection E as <-].
  destruct (reg_get _ _) as [c|].
  - destruct (nth_error _ c); [destruct (str_eqb _ _); [|discriminate]|]; now injection E as <-.
  - now injection E as <-.
Qed.

Lemma step_handles e w o :
  w_handles (fst (step e w o)) = w_handles w
  \/ (exists c, w_handles (fst (step e w o)) = w_handles w ++ [Some c])
  \/ (exists h, o = ODropStyle h /\ w_handles (fst (step e w o)) = upd (w_handles w) h (fun _ => None)).
Proof.
  destruct o; cbn [step]; auto.
  - left. unfold build. destruct (e_wasm e); [|auto]. destruct cont; [auto|].
    destruct (e_document e); [|auto]. now destruct (e_head e).
  - left. unfold clone_manager. now destruct (handle_of _ _).
  - left. unfold drop_manager. destruct (handle_of _ _) as [mi|]; [|auto].
    destruct (nth_error (w_mgrs w) mi) as [m|]; [|auto]. cbv zeta. destruct (Nat.eqb _ _); [|auto]. cbn [fst].
    match goal with |- w_handles (release_all e ?l ?x) = _ => destruct (release_all_frame e l x) as (_ & _ & -> & _) end.
    reflexivity.
  - destruct (handle_of (w_mhandles w) h) as [mi|]; [|auto].
    unfold get_or_register. destruct (nth_error (w_mgrs w) mi) as [m|]; [|auto].
    destruct (reg_get _ _) as [c|]; [right; left; now exists c|]. cbv zeta.
    destruct (_ && _); [auto|].
    destruct (m_data m); [right; left; eexists; reflexivity|].
    destruct (mount _ _ _ _ _); [right; left; eexists; reflexivity|auto].
  - unfold clone_style. destruct (handle_of _ _) as [c|]; [|auto]. right. left. now exists c.
  - unfold drop_style. destruct (handle_of (w_handles w) h) as [c|]; [|auto]. right. right. exists h. split; auto.
    cbn [fst]. match goal with |- w_handles (release e ?l ?x) = _ => destruct (release_frame e l x) as (_ & _ & -> & _) end.
    reflexivity.
  - left. unfold unregister_style. destruct (handle_of _ _) as [c|]; [|auto].
    destruct (nth_error (w_contents w) c) as [x|]; [|auto]. destruct (nth_error (w_mgrs w) (c_mgr x)) as [m|]; [|auto].
    destruct (Nat.eqb _ _); [auto|]. destruct (reg_remove _ _) as [r [y|]]; cbn [fst]; [|auto].
    match goal with |- w_handles (release e ?l ?x) = _ => destruct (release_frame e l x) as (_ & _ & -> & _) end.
    reflexivity.
  - left. destruct (handle_of _ _); [|auto]. apply load_data_handles.
  - left. now destruct (handle_of _ _).
Qed.

Lemma step_mhandles e w o :
  w_mhandles (fst (step e w o)) = w_mhandles w
  \/ (exists c, w_mhandles (fst (step e w o)) = w_mhandles w ++ [Some c])
  \/ (exists h, o = ODropManager h /\ w_mhandles (fst (step e w o)) = upd (w_mhandles w) h (fun _ => None)).
Proof.
  destruct o; cbn [step]; auto.
  - unfold build. destruct (e_wasm e); [|right; left; now eexists]. destruct cont; [right; left; now eexists|].
    destruct (e_document e); [|auto]. destruct (e_head e); [right; left; now eexists|auto].
  - unfold clone_manager. destruct (handle_of _ _); [right; left; now eexists|auto].
  - unfold drop_manager. destruct (handle_of _ _) as [mi|]; [|auto].
    destruct (nth_error (w_mgrs w) mi) as [m|]; [|auto]. cbv zeta. right. right. exists h. split; auto.
    destruct (Nat.eqb _ _); [|auto]. cbn [fst].
    match goal with |- w_mhandles (release_all e ?l ?x) = _ => destruct (release_all_frame e l x) as (_ & _ & _ & -> & _) end.
    reflexivity.
  - left. destruct (handle_of (w_mhandles w) h) as [mi|]; [|auto].
    unfold get_or_register. destruct (nth_error (w_mgrs w) mi) as [m|]; [|auto].
    destruct (reg_get _ _) as [c|]; [auto|]. cbv zeta. destruct (_ && _); [auto|].
    destruct (m_data m); [auto|]. now destruct (mount _ _ _ _ _).
  - left. unfold clone_style. now destruct (handle_of _ _) as [c|].
  - left. unfold drop_style. destruct (handle_of (w_handles w) h) as [c|]; [|auto].
    cbn [fst]. match goal with |- w_mhandles (release e ?l ?x) = _ => destruct (release_frame e l x) as (_ & _ & _ & -> & _) end.
    reflexivity.
  - left. unfold unregister_style. destruct (handle_of _ _) as [c|]; [|auto].
    destruct (nth_error (w_contents w) c) as [x|]; [|auto]. destruct (nth_error (w_mgrs w) (c_mgr x)) as [m|]; [|auto].
    destruct (Nat.eqb _ _); [auto|]. destruct (reg_remove _ _) as [r [y|]]; cbn [fst]; [|auto].
    match goal with |- w_mhandles (release e ?l ?x) = _ => destruct (release_frame e l x) as (_ & _ & _ & -> & _) end.
    reflexivity.
  - left. destruct (handle_of _ _); [|auto]. apply load_data_handles.
  - left. now destruct (handle_of _ _).
Qed.

Lemma handle_app l x h c : handle_of l h = Some c -> handle_of (l ++ [x]) h = Some c.
Proof.
  unfold handle_of. destruct (nth_error l h) as [[y|]|] eqn:E; try discriminate. intros H.
  now rewrite (nth_app_old _ _ _ _ E).
Qed.
Lemma handle_upd l h h' c : h <> h' -> handle_of l h' = Some c -> handle_of (upd l h (fun _ => None)) h' = Some c.
Proof. intros N. unfold handle_of. now rewrite nth_upd_ne. Qed.
Lemma handle_dropped (l : list (option nat)) h : handle_of (upd l h (fun _ => None)) h = None.
Proof. unfold handle_of. rewrite nth_upd_eq. now destruct (nth_error l h). Qed.
Lemma handle_lt l h c : handle_of l h = Some c -> h < List.length l.
Proof. intros H. apply handle_nth in H. now apply nth_lt in H. Qed.

Lemma step_handle_kept e w o h c :
  handle_of (w_handles w) h = Some c -> o <> ODropStyle h -> handle_of (w_handles (fst (step e w o))) h = Some c.
Proof.
  intros H N. destruct (step_handles e w o) as [->|[(x & ->)|(h' & -> & ->)]]; auto.
  - now apply handle_app.
  - apply handle_upd; [intros ->; now apply N|exact H].
Qed.
Lemma step_mhandle_kept e w o h c :
  handle_of (w_mhandles w) h = Some c -> o <> ODropManager h -> handle_of (w_mhandles (fst (step e w o))) h = Some c.
Proof.
  intros H N. destruct (step_mhandles e w o) as [->|[(x & ->)|(h' & -> & ->)]]; auto.
  - now apply handle_app.
  - apply handle_upd; [intros ->; now apply N|exact H].
Qed.

(** Of a manager only its registry, data and count change. *)
Definition like (m m' : mgr) : Prop :=
  m_prefix m' = m_prefix m /\ m_container m' = m_container m /\ (m_data m = None -> m_data m' = None).
Lemma like_refl m : like m m. Proof. now repeat split. Qed.
Lemma like_trans a b c : like a b -> like b c -> like a c.
Proof. intros (A1 & A2 & A3) (B1 & B2 & B3). unfold like. rewrite B1, B2. auto. Qed.
Lemma like_upd l i f mi m :
  (forall x, like x (f x)) -> nth_error l mi = Some m -> exists m', nth_error (upd l i f) mi = Some m' /\ like m m'.
Proof.
  intros F H. rewrite nth_upd. destruct (Nat.eqb_spec i mi) as [->|]; rewrite H; cbn; eexists; split; eauto using like_refl.
Qed.
Lemma load_data_like mi l w mj m :
  nth_error (w_mgrs w) mj = Some m -> exists m', nth_error (w_mgrs (fst (load_data mi l w))) mj = Some m' /\ like m m'.
Proof.
  revert w m. induction l as [|r l IH]; intros w m H; [exists m; split; [exact H|apply like_refl]|]. cbn [load_data].
  destruct (load_one mi r w) as [w1|] eqn:E; [|exists m; split; [exact H|apply like_refl]].
  assert (G : exists m', nth_error (w_mgrs w1) mj = Some m' /\ like m m').
  { unfold load_one in E. destruct (nth_error (w_mgrs w) mi) as [x|]; [|injection E as <-; exists m; split; [exact H|apply like_refl]].
    destruct (reg_get _ _) as [c|].
    - destruct (nth_error _ c); [destruct (str_eqb _ _); [|discriminate]|]; injection E as <-; exists m; split; auto using like_refl.
    - injection E as <-. cbn. apply like_upd; auto. intros y. now repeat split. }
  destruct G as (m1 & H1 & L1). destruct (IH w1 m1 H1) as (m2 & H2 & L2). exists m2. split; eauto using like_trans.
Qed.
Lemma step_like e w o mi m :
  nth_error (w_mgrs w) mi = Some m -> exists m', nth_error (w_mgrs (fst (step e w o))) mi = Some m' /\ like m m'.
Proof.
  intros H. assert (Z : exists m', nth_error (w_mgrs w) mi = Some m' /\ like m m') by (exists m; split; auto using like_refl).
  destruct o; cbn [step]; auto.
  - assert (G : forall x, exists m', nth_error (w_mgrs w ++ [x]) mi = Some m' /\ like m m')
      by (intros x; exists m; split; auto using like_refl, nth_app_old).
    unfold build. destruct (e_wasm e); [|apply G]. destruct cont; [apply G|].
    destruct (e_document e); [|auto]. destruct (e_head e); [apply G|auto].
  - unfold clone_manager. destruct (handle_of _ _); [|auto]. cbn. apply like_upd; auto. intros y. now repeat split.
  - unfold drop_manager. destruct (handle_of _ _) as [mj|]; [|auto].
    destruct (nth_error (w_mgrs w) mj) as [x|]; [|auto]. cbv zeta. destruct (Nat.eqb _ _); cbn [fst].
    + match goal with |- exists m', nth_error (w_mgrs (release_all e ?l ?x)) _ = _ /\ _ =>
        destruct (release_all_frame e l x) as (_ & -> & _) end. cbn. apply like_upd; auto. intros y. now repeat split.
    + cbn. apply like_upd; auto. intros y. now repeat split.
  - destruct (handle_of (w_mhandles w) h) as [mj|]; [|auto].
    unfold get_or_register. destruct (nth_error (w_mgrs w) mj) as [x|] eqn:Hx; [|auto].
    destruct (reg_get _ _) as [c|]; [auto|]. cbv zeta. destruct (_ && _); [auto|].
    destruct (m_data x) eqn:D.
    + cbn. rewrite upd_upd, nth_upd. destruct (Nat.eqb_spec mj mi) as [->|]; rewrite H; cbn; eexists; split; eauto using like_refl.
      rewrite Hx in H. injection H as ->. unfold like. cbn. repeat split. congruence.
    + destruct (mount _ _ _ _ _); [|auto]. cbn. apply like_upd; auto. intros y. now repeat split.
  - unfold clone_style. destruct (handle_of _ _) as [c|]; auto.
  - unfold drop_style. destruct (handle_of (w_handles w) h) as [c|]; [|auto]. cbn [fst].
    match goal with |- exists m', nth_error (w_mgrs (release e ?l ?x)) _ = _ /\ _ => destruct (release_frame e l x) as (_ & -> & _) end.
    exact Z.
  - unfold unregister_style. destruct (handle_of _ _) as [c|]; [|auto].
    destruct (nth_error (w_contents w) c) as [x|]; [|auto]. destruct (nth_error (w_mgrs w) (c_mgr x)) as [y|]; [|auto].
    destruct (Nat.eqb _ _); [auto|]. destruct (reg_remove _ _) as [r [z|]]; cbn [fst].
    + match goal with |- exists m', nth_error (w_mgrs (release e ?l ?x)) _ = _ /\ _ => destruct (release_frame e l x) as (_ & -> & _) end.
      cbn. apply like_upd; auto. intros t. now repeat split.
    + cbn. apply like_upd; auto. intros t. now repeat split.
  - destruct (handle_of _ _); [|auto]. now apply load_data_like.
  - destruct (handle_of _ _); auto.
Qed.

(** ** Handles of components *)

Definition owned (gs : list guard) : list nat :=
  flat_map (fun g => g_manager g :: source_handles (g_source g)) gs.

(** The style of a mounted [Global]: in its manager, under the key of its sheet. *)
Definition guard_ok (w : world) (g : guard) : Prop :=
  exists mi m cid c,
    handle_of (w_mhandles w) (g_manager g) = Some mi /\ nth_error (w_mgrs w) mi = Some m
    /\ handle_of (w_handles w) (g_style g) = Some cid /\ nth_error (w_contents w) cid = Some c
    /\ c_key c = global_key m (s_sheet (g_source g)) /\ c_mgr c = mi.

Section Good.
Variables (y : yew) (e : env) (page : dom) (ids : list str).

(** [extra] are handles of managers that are neither the user's nor a component's. *)
Record good (w : world) (gs : list guard) (extra : list nat) : Prop := mk_good
  { gd_reach : exists l, reaches e page l w /\ loaded_ids l = ids;
    gd_guards : Forall (guard_ok w) gs;
    gd_styles : NoDup (map g_style gs);
    gd_owned : NoDup (extra ++ owned gs);
    gd_live : Forall (fun h => exists mi, handle_of (w_mhandles w) h = Some mi) (extra ++ owned gs) }.

Lemma guard_step w o g :
  guard_ok w g -> o <> ODropStyle (g_style g) -> o <> ODropManager (g_manager g) -> guard_ok (fst (step e w o)) g.
Proof.
  intros (mi & m & cid & c & H1 & H2 & H3 & H4 & H5 & H6) N1 N2.
  destruct (step_like e w o mi m H2) as (m' & Hm' & L). destruct (step_contents e w o cid c H4) as (c' & Hc' & B).
  exists mi, m', cid, c'. split; [now apply step_mhandle_kept|]. split; [exact Hm'|].
  split; [now apply step_handle_kept|]. split; [exact Hc'|]. apply base_fields in B. destruct B as (B1 & B2 & B3 & B4 & B5).
  destruct L as (L1 & _). unfold global_key in *. rewrite L1. split; congruence.
Qed.

Lemma good_step w gs extra o :
  good w gs extra -> loaded_ids [o] = [] ->
  (forall h, o = ODropStyle h -> ~ In h (map g_style gs)) ->
  (forall h, o = ODropManager h -> ~ In h (extra ++ owned gs)) ->
  good (fst (step e w o)) gs extra.
Proof.
  intros [(l & R & Hl) G S O L] Lo N1 N2. split; auto.
  - exists (l ++ [o]). split; [now apply reaches_step|]. unfold loaded_ids in *. now rewrite flat_map_app, Lo, app_nil_r.
  - rewrite Forall_forall in *. intros g Hg. apply guard_step; auto.
    + intros E. apply (N1 _ E). now apply in_map.
    + intros E. apply (N2 _ E). apply in_app_iff. right. apply in_flat_map. exists g. split; auto. now left.
  - rewrite Forall_forall in *. intros h Hh. destruct (L h Hh) as [mi Hm]. exists mi. apply step_mhandle_kept; auto.
    intros E. now apply (N2 _ E).
Qed.

Lemma good_perm w gs gs' extra extra' :
  Permutation gs gs' -> Permutation extra extra' -> good w gs extra -> good w gs' extra'.
Proof.
  intros P P' [R G S O L]. assert (PO : Permutation (extra ++ owned gs) (extra' ++ owned gs')).
  { apply Permutation_app; auto. now apply Permutation_flat_map. }
  split; auto.
  - eapply Permutation_Forall; eauto.
  - eapply Permutation_NoDup; [apply Permutation_map|]; eauto.
  - eapply Permutation_NoDup; eauto.
  - eapply Permutation_Forall; eauto.
Qed.

Lemma good_forget w gs h extra : good w gs (h :: extra) -> good w gs extra /\ ~ In h (extra ++ owned gs).
Proof.
  intros [R G S O L]. cbn in O, L. inversion O; subst. inversion L; subst. split; auto. now split.
Qed.

Lemma good_fresh w gs extra o w' h mi :
  good w gs extra -> step e w o = (w', RHandle h) -> loaded_ids [o] = [] ->
  (forall h, o <> ODropStyle h) -> (forall h, o <> ODropManager h) ->
  h = List.length (w_mhandles w) -> handle_of (w_mhandles w') h = Some mi ->
  good w' gs (h :: extra).
Proof.
  intros H S Lo N1 N2 Eh Hh. assert (G : good w' gs extra).
  { replace w' with (fst (step e w o)) by now rewrite S. apply good_step; auto.
    - intros x E. now elim (N1 x).
    - intros x E. now elim (N2 x). }
  destruct H as [_ _ _ _ L]. destruct G as [R G S' O L']. split; auto.
  - cbn. constructor; auto. intros I. rewrite Forall_forall in L. apply L in I. destruct I as [x I].
    apply handle_lt in I. lia.
  - cbn. constructor; eauto.
Qed.

Lemma clone_result w h0 w' h :
  step e w (OCloneManager h0) = (w', RHandle h) ->
  h = List.length (w_mhandles w)
  /\ exists mi, handle_of (w_mhandles w) h0 = Some mi /\ handle_of (w_mhandles w') h = Some mi.
Proof.
  cbn [step]. unfold clone_manager. destruct (handle_of (w_mhandles w) h0) as [mi|] eqn:E; [|discriminate].
  intros H. injection H as <- <-. split; auto. exists mi. split; auto. cbn. unfold handle_of. now rewrite nth_app_new.
Qed.
Lemma build_result w p c ap st w' h :
  step e w (OBuild p c ap st) = (w', RHandle h) ->
  h = List.length (w_mhandles w) /\ handle_of (w_mhandles w') h = Some (List.length (w_mgrs w))
  /\ exists c', w_mgrs w' = w_mgrs w ++ [mk_mgr p c' ap (if st then Some [] else None) [] 1].
Proof.
  cbn [step]. unfold build. cbv zeta. intros H.
  destruct (e_wasm e); [destruct c as [c|]; [|destruct (e_document e); [destruct (e_head e)|]]|]; try discriminate;
    injection H as <- <-; cbn; unfold handle_of; rewrite nth_app_new; repeat split; eauto.
Qed.

Definition dflt (a : app) : list nat := match a_default a with Some h => [h] | None => [] end.
Definition app_good (a : app) : Prop := good (a_world a) (guards a) (dflt a).

Lemma good_default a a1 h :
  app_good a -> default_manager e a = Some (a1, h) ->
  good (a_world a1) (guards a1) (h :: dflt a1) /\ a_globals a1 = a_globals a.
Proof.
  unfold default_manager, app_good, dflt. destruct (a_default a) as [d|] eqn:D.
  - destruct (step e (a_world a) (OCloneManager d)) as [w [h'| | | | |]] eqn:S; try discriminate. intros G H. injection H as <- <-.
    destruct (clone_result _ _ _ _ S) as (E & mi & _ & Hh). cbn [a_world with_world a_default]. rewrite D. split; auto.
    eapply good_fresh; eauto; discriminate.
  - destruct (step e (a_world a) (OBuild _ None true false)) as [w [h0| | | | |]] eqn:S0; try discriminate.
    destruct (step e w (OCloneManager h0)) as [w1 [h'| | | | |]] eqn:S1; try discriminate. intros G H. injection H as <- <-.
    cbn [a_world a_default a_globals]. split; auto.
    destruct (clone_result _ _ _ _ S1) as (E1 & mi1 & _ & Hh1). destruct (build_result _ _ _ _ _ _ _ S0) as (E0 & Hh0 & _).
    assert (G0 : good w (guards a) [h0]) by (eapply good_fresh; eauto; discriminate).
    eapply good_fresh; eauto; discriminate.
Qed.

Lemma good_context ctx a a1 h :
  app_good a -> context_manager e ctx a = Some (a1, h) ->
  good (a_world a1) (guards a1) (h :: dflt a1) /\ a_globals a1 = a_globals a.
Proof.
  destruct ctx as [d|]; [|apply good_default]. cbn [context_manager].
  destruct (step e (a_world a) (OCloneManager d)) as [w [h'| | | | |]] eqn:S; try discriminate. intros G H. injection H as <- <-.
  destruct (clone_result _ _ _ _ S) as (E & mi & _ & Hh). cbn [a_world with_world]. split; auto.
  unfold app_good in G. change (guards (with_world a w)) with (guards a). change (dflt (with_world a w)) with (dflt a).
  eapply good_fresh; eauto; discriminate.
Qed.

Lemma good_clone_source src w gs extra w1 src1 :
  good w gs extra -> clone_source e src w = Some (w1, src1) ->
  good w1 gs (source_handles src1 ++ extra) /\ s_sheet src1 = s_sheet src.
Proof.
  unfold clone_source. destruct (s_manager src) as [d|] eqn:D.
  - destruct (step e w (OCloneManager d)) as [w' [h'| | | | |]] eqn:S; try discriminate. intros G H. injection H as <- <-.
    destruct (clone_result _ _ _ _ S) as (E & mi & _ & Hh). split; auto. cbn. eapply good_fresh; eauto; discriminate.
  - intros G H. injection H as <- <-. unfold source_handles. now rewrite D.
Qed.

Lemma good_drop_manager w gs h extra :
  good w gs (h :: extra) -> good (fst (step e w (ODropManager h))) gs extra.
Proof.
  intros G. apply good_forget in G. destruct G as [G N]. apply good_step; auto; [discriminate|].
  intros h' E. now injection E as ->.
Qed.
Lemma good_drop_source src w gs extra :
  good w gs (source_handles src ++ extra) -> good (drop_source e src w) gs extra.
Proof.
  unfold source_handles, drop_source. destruct (s_manager src); auto. apply good_drop_manager.
Qed.

(** A guard out of the list: its handles of managers are left over. *)
Lemma good_out w g gs extra :
  good w (g :: gs) extra ->
  good w gs (g_manager g :: source_handles (g_source g) ++ extra) /\ ~ In (g_style g) (map g_style gs)
  /\ guard_ok w g.
Proof.
  intros [R G S O L]. inversion G; subst. inversion S; subst. split; [|auto].
  assert (P : Permutation (extra ++ owned (g :: gs)) ((g_manager g :: source_handles (g_source g) ++ extra) ++ owned gs)).
  { cbn [owned flat_map]. fold (owned gs). cbn [List.app]. rewrite <- Permutation_middle. constructor.
    rewrite !app_assoc. apply Permutation_app_tail. apply Permutation_app_comm. }
  split; auto.
  - eapply Permutation_NoDup; eauto.
  - eapply Permutation_Forall; eauto.
Qed.
Lemma good_in w g gs extra :
  good w gs (g_manager g :: source_handles (g_source g) ++ extra) -> guard_ok w g -> ~ In (g_style g) (map g_style gs) ->
  good w (g :: gs) extra.
Proof.
  intros [R G S O L] H N.
  assert (P : Permutation ((g_manager g :: source_handles (g_source g) ++ extra) ++ owned gs) (extra ++ owned (g :: gs))).
  { symmetry. cbn [owned flat_map]. fold (owned gs). cbn [List.app]. rewrite <- Permutation_middle. constructor.
    rewrite !app_assoc. apply Permutation_app_tail. apply Permutation_app_comm. }
  split; auto.
  - constructor; auto.
  - eapply Permutation_NoDup; eauto.
  - eapply Permutation_Forall; eauto.
Qed.

Lemma good_drop_value w g gs extra :
  good w gs extra -> ~ In (g_style g) (map g_style gs) -> good (drop_value e g w) gs extra.
Proof.
  intros G N. unfold drop_value. apply good_step; auto; [|intros h E; now injection E as <-|discriminate].
  apply good_step; auto; discriminate.
Qed.
Lemma good_drop_deps w g gs extra :
  good w gs (g_manager g :: source_handles (g_source g) ++ extra) -> good (drop_deps e g w) gs extra.
Proof. intros G. unfold drop_deps. now apply good_drop_source, good_drop_manager. Qed.
Lemma good_drop_guard w g gs extra : good w (g :: gs) extra -> good (drop_guard y e g w) gs extra.
Proof.
  intros G. apply good_out in G. destruct G as (G & N & _). unfold drop_guard. destruct (y_key_first y).
  - now apply good_drop_value; [apply good_drop_deps|].
  - now apply good_drop_deps, good_drop_value.
Qed.

(** Creating: the handle is new and on a content with that key. *)
Lemma create_result w h k w' x :
  core e ids [] w -> step e w (OCreate h k) = (w', RHandle x) ->
  x = List.length (w_handles w)
  /\ exists mi cid c, handle_of (w_mhandles w) h = Some mi /\ handle_of (w_handles w') x = Some cid
       /\ w_handles w' = w_handles w ++ [Some cid]
       /\ nth_error (w_contents w') cid = Some c /\ c_key c = k /\ c_mgr c = mi
       /\ registered w' mi k cid.
Proof.
  intros C S. cbn [step] in S. destruct (handle_of (w_mhandles w) h) as [mi|] eqn:Hh; [|discriminate].
  unfold get_or_register in S. destruct (nth_error (w_mgrs w) mi) as [m|] eqn:Hm; [|discriminate].
  destruct (reg_get (m_reg m) k) as [cid|] eqn:G.
  - injection S as <- <-. split; auto. apply reg_get_in in G.
    destruct (o_reg _ _ _ _ C _ _ Hm) as (_ & _ & K). destruct (K _ _ G) as (c & Hc & K1 & K2).
    exists mi, cid, (set_strong (S (c_strong c)) c). split; auto. cbn. split; [unfold handle_of; now rewrite nth_app_new|].
    split; auto. rewrite nth_upd_eq, Hc. repeat split; auto. exists m. auto.
  - cbv zeta in S. destruct (e_debug e && _); [discriminate|].
    destruct (m_data m) as [ld|].
    + injection S as <- <-. split; auto. exists mi, (List.length (w_contents w)). eexists. split; auto. cbn.
      split; [unfold handle_of; now rewrite nth_app_new|]. split; auto. split; [apply nth_app_new|]. cbn. split; auto. split; auto.
      eexists. cbn. rewrite upd_upd, nth_upd_eq, Hm. split; [reflexivity|]. cbn. apply in_app_iff. right. now left.
    + destruct (mount _ _ _ _ _); [|discriminate]. injection S as <- <-. split; auto.
      exists mi, (List.length (w_contents w)). eexists. split; auto. cbn.
      split; [unfold handle_of; now rewrite nth_app_new|]. split; auto. split; [apply nth_app_new|]. cbn. split; auto. split; auto.
      eexists. cbn. rewrite nth_upd_eq, Hm. split; [reflexivity|]. cbn. apply in_app_iff. right. now left.
Qed.

Lemma good_core w gs extra : good w gs extra -> core e ids [] w.
Proof. intros [(l & R & <-) _ _ _ _]. now apply reaches_core in R. Qed.

Lemma good_new_guard w gs h src extra w' g :
  good w gs (h :: source_handles src ++ extra) -> new_guard e h src w = Some (w', g) ->
  good w' (g :: gs) extra /\ g_manager g = h /\ g_source g = src.
Proof.
  intros G H. unfold new_guard in H. destruct (manager_of w h) as [m|] eqn:M; [|discriminate].
  destruct (step e w (OCreate h (global_key m (s_sheet src)))) as [w1 [x| | | | |]] eqn:S; try discriminate.
  injection H as <- <-. split; [|auto]. pose proof (good_core _ _ _ G) as C.
  destruct (create_result _ _ _ _ _ C S) as (Ex & mi & cid & c & H1 & H2 & H2' & H3 & H4 & H5 & _).
  assert (G1 : good w1 gs (h :: source_handles src ++ extra)).
  { replace w1 with (fst (step e w (OCreate h (global_key m (s_sheet src))))) by now rewrite S.
    apply good_step; auto; discriminate. }
  apply good_in; auto; cbn [g_manager g_source g_style].
  - unfold manager_of in M. rewrite H1 in M.
    destruct (step_like e w (OCreate h (global_key m (s_sheet src))) mi m M) as (m' & Hm' & L1 & _).
    rewrite S in Hm'. cbn in Hm'.
    exists mi, m', cid, c. cbn [g_manager g_source g_style]. split.
    + replace w1 with (fst (step e w (OCreate h (global_key m (s_sheet src))))) by now rewrite S.
      apply step_mhandle_kept; auto. discriminate.
    + repeat split; auto. rewrite H4. unfold global_key. now rewrite L1.
  - intros I. apply in_map_iff in I. destruct I as (g' & E & I). destruct G as [_ GG _ _ _].
    rewrite Forall_forall in GG. destruct (GG _ I) as (_ & _ & c' & _ & _ & _ & Hh & _). apply handle_lt in Hh. lia.
Qed.

Definition olds (o : option guard) : list guard := match o with Some g => [g] | None => [] end.

Lemma good_memo old h src w gs extra w' g :
  good w (olds old ++ gs) (h :: source_handles src ++ extra) -> memo y e old h src w = Some (w', g) ->
  good w' (g :: gs) extra.
Proof.
  intros G H. unfold memo in H. destruct old as [g0|]; cbn [olds List.app] in G.
  - destruct (same_manager _ _ _ && source_eqb _ _ _).
    + injection H as <- <-. now apply good_drop_source, good_drop_manager.
    + destruct (y_drop_first y).
      * apply good_drop_guard in G. now apply (good_new_guard _ _ _ _ _ _ _ G) in H.
      * destruct (new_guard e h src w) as [[w1 g1]|] eqn:E; [|discriminate]. injection H as <- <-.
        apply (good_new_guard _ _ _ _ _ _ _ G) in E. destruct E as [E _]. apply good_drop_guard.
        eapply good_perm; [apply perm_swap|apply Permutation_refl|exact E].
  - now apply (good_new_guard _ _ _ _ _ _ _ G) in H.
Qed.

Lemma good_render old ctx src a a' g gs :
  app_good a -> Permutation (guards a) (olds old ++ gs) ->
  render_global y e old ctx src a = Some (a', g) ->
  good (a_world a') (g :: gs) (dflt a') /\ a_globals a' = a_globals a.
Proof.
  intros G P H. unfold render_global in H. destruct (context_manager e ctx a) as [[a1 h]|] eqn:E; [|discriminate].
  destruct (good_context _ _ _ _ G E) as [G1 Eg].
  destruct (clone_source e src (a_world a1)) as [[w1 src1]|] eqn:Es; [|discriminate].
  destruct (good_clone_source _ _ _ _ _ _ G1 Es) as [G2 _].
  destruct (memo y e old h src1 w1) as [[w2 g1]|] eqn:Em; [|discriminate]. injection H as <- <-.
  cbn [a_world with_world a_globals]. split; auto. change (dflt (with_world a1 w2)) with (dflt a1).
  eapply good_memo; [|exact Em]. eapply good_perm; [| |exact G2].
  - unfold guards. rewrite Eg. exact P.
  - symmetry. apply Permutation_middle.
Qed.
End Good.

Lemma good_step_any e page ids w gs extra o :
  good e page ids w gs extra ->
  (forall h, o = ODropStyle h -> ~ In h (map g_style gs)) ->
  (forall h, o = ODropManager h -> ~ In h (extra ++ owned gs)) ->
  good e page (ids ++ loaded_ids [o]) (fst (step e w o)) gs extra.
Proof.
  intros [(l & R & Hl) G S O L] N1 N2. split; auto.
  - exists (l ++ [o]). split; [now apply reaches_step|]. unfold loaded_ids in *. now rewrite flat_map_app, Hl.
  - rewrite Forall_forall in *. intros g Hg. apply guard_step; auto.
    + intros E. apply (N1 _ E). now apply in_map.
    + intros E. apply (N2 _ E). apply in_app_iff. right. apply in_flat_map. exists g. split; auto. now left.
  - rewrite Forall_forall in *. intros h Hh. destruct (L h Hh) as [mi Hm]. exists mi. apply step_mhandle_kept; auto.
    intros E. now apply (N2 _ E).
Qed.

(** The ids loaded by a program. *)
Definition aloaded (l : list aop) : list str :=
  flat_map (fun o => match o with AOp o => loaded_ids [o] | _ => [] end) l.

Lemma guards_app l g : flat_map (fun o : option guard => match o with Some g => [g] | None => [] end) (l ++ [Some g])
  = flat_map (fun o => match o with Some g => [g] | None => [] end) l ++ [g].
Proof. now rewrite flat_map_app. Qed.
Lemma guards_upd l i g (o : option guard) :
  nth_error l i = Some (Some g) ->
  exists gs, Permutation (flat_map (fun o => match o with Some g => [g] | None => [] end) l) (g :: gs)
    /\ Permutation (flat_map (fun o => match o with Some g => [g] | None => [] end) (upd l i (fun _ => o))) (olds o ++ gs).
Proof.
  intros H. destruct (upd_split l i (fun _ => o) _ H) as (a & b & -> & _ & ->).
  set (f := fun o : option guard => match o with Some g => [g] | None => [] end).
  exists (flat_map f a ++ flat_map f b). rewrite !flat_map_app. cbn [flat_map]. split.
  - cbn. symmetry. apply Permutation_middle.
  - change (f o) with (olds o). rewrite !app_assoc. apply Permutation_app_tail, Permutation_app_comm.
Qed.

Lemma free_not_in l h : free l (Some h) = true -> ~ In h l.
Proof.
  unfold free. intros H I. apply negb_true_iff in H. rewrite <- not_true_iff_false in H. apply H.
  apply existsb_exists. exists h. split; auto. apply Nat.eqb_refl.
Qed.

Lemma app_owned a : manager_handles a = dflt a ++ owned (guards a).
Proof. reflexivity. Qed.

Lemma good_classes e page ids src a a' cl :
  app_good e page ids a -> user_source a src = true ->
  into_classes e src a = Some (a', cl) -> app_good e page ids a' /\ a_globals a' = a_globals a.
Proof.
  intros G F H. unfold into_classes in H. apply andb_prop in F. destruct F as [F _].
  assert (K : exists a1 h, match s_manager src with Some h => Some (a, h) | None => default_manager e a end = Some (a1, h)
            /\ app_good e page ids a1 /\ a_globals a1 = a_globals a /\ ~ In h (dflt a1 ++ owned (guards a1))).
  { destruct (s_manager src) as [h|].
    - exists a, h. repeat split; auto; try apply G. now apply free_not_in in F.
    - destruct (default_manager e a) as [[a1 h]|] eqn:D; [|discriminate]. exists a1, h. split; auto.
      apply (good_default e page ids _ _ _ G) in D. destruct D as [D E]. apply good_forget in D. now repeat split; auto; try apply D. }
  destruct K as (a1 & h & E & G1 & Eg & N). rewrite E in H. clear E.
  unfold new_style in H. destruct (manager_of (a_world a1) h) as [m|]; [|discriminate].
  destruct (step e (a_world a1) (OCreate h _)) as [w2 [x| | | | |]] eqn:S; try discriminate.
  destruct (get_id _ x) as [c|]; [|discriminate]. injection H as <- _. split; auto.
  unfold app_good. cbn [a_world with_world]. change (guards (with_world a1 ?w)) with (guards a1).
  assert (Nx : ~ In x (map g_style (guards a1))).
  { apply create_result with (ids := ids) in S; [|eapply good_core; eauto]. destruct S as [-> _].
    intros I. apply in_map_iff in I. destruct I as (g' & Eg' & I). pose proof (gd_guards _ _ _ _ _ _ G1) as GG.
    rewrite Forall_forall in GG. destruct (GG _ I) as (_ & _ & c' & _ & _ & _ & Hh & _). apply handle_lt in Hh. lia. }
  apply (good_step e page ids (fst (step e w2 (ODropManager h))) (guards a1) (dflt a1) (ODropStyle x)); auto;
    [|intros h' E; now injection E as <-|discriminate].
  apply good_step; auto; [|discriminate|intros h' E; now injection E as <-].
  replace w2 with (fst (step e (a_world a1) (OCreate h (style_key (m_prefix m) (s_sheet src))))) by now rewrite S.
  apply good_step; auto; discriminate.
Qed.

Lemma default_fresh e a a1 h : default_manager e a = Some (a1, h) ->
  (forall d, a_default a1 = Some d -> a_default a = Some d \/ List.length (w_mhandles (a_world a)) <= d)
  /\ List.length (w_mhandles (a_world a)) <= h.
Proof.
  unfold default_manager. destruct (a_default a) as [d|] eqn:D.
  - destruct (step e (a_world a) (OCloneManager d)) as [w [h'| | | | |]] eqn:S; try discriminate. intros H. injection H as <- <-.
    destruct (clone_result _ _ _ _ _ S) as (E & _). cbn [a_default with_world]. rewrite D. split; auto. lia.
  - destruct (step e (a_world a) (OBuild _ None true false)) as [w [h0| | | | |]] eqn:S0; try discriminate.
    destruct (step e w (OCloneManager h0)) as [w1 [h'| | | | |]] eqn:S1; try discriminate. intros H. injection H as <- <-.
    destruct (clone_result _ _ _ _ _ S1) as (E1 & _). destruct (build_result _ _ _ _ _ _ _ _ S0) as (E0 & Hh0 & _).
    apply handle_lt in Hh0. cbn [a_default]. split; [intros d Ed; injection Ed as <-; right; lia|lia].
Qed.
Lemma context_fresh e ctx a a1 h : context_manager e ctx a = Some (a1, h) ->
  (forall d, a_default a1 = Some d -> a_default a = Some d \/ List.length (w_mhandles (a_world a)) <= d)
  /\ List.length (w_mhandles (a_world a)) <= h.
Proof.
  destruct ctx as [d|]; [|apply default_fresh]. cbn [context_manager].
  destruct (step e (a_world a) (OCloneManager d)) as [w [h'| | | | |]] eqn:S; try discriminate. intros H. injection H as <- <-.
  destruct (clone_result _ _ _ _ _ S) as (E & _). split; auto. lia.
Qed.

Lemma good_use_style e page ids ctx src a a' x :
  app_good e page ids a -> user_source a src = true ->
  use_style e ctx src a = Some (a', x) -> app_good e page ids a' /\ a_globals a' = a_globals a.
Proof.
  intros G F H. unfold use_style in H. destruct (context_manager e ctx a) as [[a1 h]|] eqn:E; [|discriminate].
  destruct (new_style e h (s_sheet src) (drop_source e src (a_world a1))) as [w2 [z| | | | |]] eqn:S; try discriminate.
  injection H as <- <-. destruct (good_context e page ids _ _ _ _ G E) as [G1 Eg]. split; auto.
  apply context_fresh in E. destruct E as [Ed Eh].
  assert (G2 : good e page ids (drop_source e src (a_world a1)) (guards a1) (h :: dflt a1)).
  { unfold drop_source. apply andb_prop in F. destruct F as [F1 F2]. destruct (s_manager src) as [d|]; [|exact G1].
    apply free_not_in in F1. destruct (handle_of (w_mhandles (a_world a)) d) as [mi|] eqn:Hd; [|discriminate].
    apply handle_lt in Hd. apply good_step; auto; [discriminate|]. intros h' Q. injection Q as <-.
    intros I. cbn in I. destruct I as [I|I]; [lia|]. apply in_app_iff in I. destruct I as [I|I].
    - unfold dflt in I. destruct (a_default a1) as [d'|] eqn:D1; [|contradiction]. destruct I as [<-|[]].
      destruct (Ed _ eq_refl) as [D|D]; [|lia]. apply F1. rewrite app_owned. apply in_app_iff. left. unfold dflt. rewrite D. now left.
    - apply F1. rewrite app_owned. apply in_app_iff. right. unfold guards in *. now rewrite <- Eg. }
  unfold new_style in S. destruct (manager_of _ h) as [m|]; [|discriminate].
  apply (good_drop_manager e page ids w2 (guards a1) h (dflt a1)).
  match type of S with step e ?w ?o = _ => replace w2 with (fst (step e w o)) by now rewrite S end.
  apply good_step; auto; discriminate.
Qed.

Lemma good_astep y e page ids a o a' :
  app_good e page ids a -> astep y e a o = Some a' -> app_good e page (ids ++ aloaded [o]) a'.
Proof.
  intros G H. destruct o as [o|ctx src|i ctx src|i|src|ctx src]; cbn [astep] in H;
    unfold aloaded; cbn [flat_map]; rewrite ?app_nil_r.
  - destruct (free _ (op_style o) && free _ (op_mhandle o)) eqn:F; [|discriminate]. apply andb_prop in F. destruct F as [F1 F2].
    assert (G' : good e page (ids ++ loaded_ids [o]) (fst (step e (a_world a) o)) (guards a) (dflt a)).
    { apply good_step_any; auto.
      - intros h ->. cbn in F1. now apply free_not_in in F1.
      - intros h ->. cbn in F2. now apply free_not_in in F2. }
    destruct (step e (a_world a) o) as [w [ | | | | | ]]; try discriminate; injection H as <-; exact G'.
  - destruct (render_global y e None ctx src a) as [[a1 g]|] eqn:R; [|discriminate]. injection H as <-.
    destruct (good_render y e page ids None ctx src a a1 g (guards a) G (Permutation_refl _) R) as [G1 Eg].
    unfold app_good. cbn [a_world with_globals]. unfold guards. cbn [a_globals with_globals]. rewrite guards_app, Eg.
    fold (guards a). change (dflt (with_globals a1 ?l)) with (dflt a1).
    eapply good_perm; [|apply Permutation_refl|exact G1]. apply Permutation_cons_append.
  - destruct (nth_error (a_globals a) i) as [[g|]|] eqn:E; try discriminate.
    destruct (render_global y e (Some g) ctx src a) as [[a1 g1]|] eqn:R; [|discriminate]. injection H as <-.
    destruct (guards_upd _ _ _ (Some g1) E) as (gs & P1 & P2).
    destruct (good_render y e page ids (Some g) ctx src a a1 g1 gs G P1 R) as [G1 Eg].
    unfold app_good. cbn [a_world with_globals]. unfold guards. cbn [a_globals with_globals]. rewrite Eg.
    change (dflt (with_globals a1 ?l)) with (dflt a1).
    eapply good_perm; [symmetry; exact P2|apply Permutation_refl|exact G1].
  - destruct (nth_error (a_globals a) i) as [[g|]|] eqn:E; try discriminate. injection H as <-.
    destruct (guards_upd _ _ _ None E) as (gs & P1 & P2).
    unfold app_good. cbn [a_world with_globals with_world]. unfold guards. cbn [a_globals with_globals].
    change (dflt (with_globals (with_world a ?w) ?l)) with (dflt a).
    eapply good_perm; [symmetry; exact P2|apply Permutation_refl|]. apply good_drop_guard.
    eapply good_perm; [exact P1|apply Permutation_refl|exact G].
  - destruct (user_source a src) eqn:U; [|discriminate].
    destruct (into_classes e src a) as [[a1 cl]|] eqn:C; [|discriminate]. injection H as <-.
    eapply good_classes in C; eauto. apply C.
  - destruct (user_source a src) eqn:U; [|discriminate].
    destruct (use_style e ctx src a) as [[a1 cl]|] eqn:C; [|discriminate]. injection H as <-.
    eapply good_use_style in C; eauto. apply C.
Qed.

Lemma good_arun y e page l : forall ids a a',
  app_good e page ids a -> arun y e a l = Some a' -> app_good e page (ids ++ aloaded l) a'.
Proof.
  induction l as [|o l IH]; intros ids a a' G H; cbn [arun] in H.
  - injection H as <-. now rewrite app_nil_r.
  - destruct (astep y e a o) as [a1|] eqn:S; [|discriminate]. apply (good_astep _ _ _ _ _ _ _ G) in S.
    apply (IH _ _ _ S) in H. unfold aloaded in *. cbn [flat_map] in *. now rewrite app_nil_r, <- app_assoc in H.
Qed.
Lemma good_start e page : app_good e page [] (app_start page).
Proof.
  unfold app_good, app_start. cbn. split; cbn; try constructor. exists []. split; auto. now exists [].
Qed.
Lemma good_reached y e page l a : arun y e (app_start page) l = Some a -> app_good e page (aloaded l) a.
Proof. intros H. now apply (good_arun _ _ _ _ _ _ _ (good_start e page)) in H. Qed.
