(** * Hydrate: without unregistration each key has one content per manager, and hydration. *)

From Coq Require Import String Ascii List NArith Bool Arith Lia.
From Verif Require Import Str StrFacts Ast Render CssParser Ids IdFacts Manager SpecManager
  ManagerFacts ManagerInv ManagerSteps ManagerCore ManagerProps.
Import ListNotations.
Local Open Scope list_scope.
Local Opaque parse to_style_str.

(** While a manager exists all its contents are registered; contents of a manager have
    different keys. *)
Definition uniq (w : world) : Prop :=
  (forall cid c, nth_error (w_contents w) cid = Some c ->
     mstrong_of (w_mgrs w) (c_mgr c) >= 1 -> registered w (c_mgr c) (c_key c) cid)
  /\ (forall i j c d, nth_error (w_contents w) i = Some c -> nth_error (w_contents w) j = Some d ->
        c_mgr c = c_mgr d -> c_key c = c_key d -> i = j).

Lemma registered_get w mi k cid m :
  registered w mi k cid -> nth_error (w_mgrs w) mi = Some m -> reg_get (m_reg m) k <> None.
Proof.
  intros (m' & Hm' & I) Hm G. rewrite Hm in Hm'. injection Hm' as <-.
  apply reg_get_none in G. apply G. apply in_map_iff. now exists (k, cid).
Qed.

Lemma uniq_base w w' :
  map base (w_contents w') = map base (w_contents w) ->
  (forall mi, mstrong_of (w_mgrs w') mi >= 1 -> mi < List.length (w_mgrs w) ->
     mstrong_of (w_mgrs w) mi >= 1) ->
  (forall cid c, nth_error (w_contents w) cid = Some c -> c_mgr c < List.length (w_mgrs w)) ->
  (forall mi k cid, registered w mi k cid -> mstrong_of (w_mgrs w') mi >= 1 ->
     registered w' mi k cid) ->
  uniq w -> uniq w'.
Proof.
  intros B S L R [U1 U2]. split.
  - intros cid c Hc P. destruct (base_nth _ _ _ _ B Hc) as (c' & Hc' & Q).
    apply base_fields in Q. destruct Q as (_ & Q2 & _ & Q4 & _). rewrite <- Q2, <- Q4 in *.
    apply R; [|exact P]. apply U1; auto. apply S; [exact P|]. eapply L; eauto.
  - intros i j c d Hc Hd M K.
    destruct (base_nth _ _ _ _ B Hc) as (c' & Hc' & Q).
    destruct (base_nth _ _ _ _ B Hd) as (d' & Hd' & Q').
    apply base_fields in Q, Q'. apply (U2 i j c' d'); intuition congruence.
Qed.

(** One new content under a vacant key of a living manager. *)
Lemma uniq_add w w' mi m c :
  w_contents w' = w_contents w ++ [c] -> c_mgr c = mi ->
  nth_error (w_mgrs w) mi = Some m -> m_strong m >= 1 -> reg_get (m_reg m) (c_key c) = None ->
  registered w' mi (c_key c) (List.length (w_contents w)) ->
  (forall j, mstrong_of (w_mgrs w') j = mstrong_of (w_mgrs w) j) ->
  (forall mj k cid, registered w mj k cid -> registered w' mj k cid) ->
  uniq w -> uniq w'.
Proof.
  intros C M Hm Hs G Rn S R [U1 U2]. rewrite <- M in *.
  assert (New : forall i x, nth_error (w_contents w) i = Some x -> c_mgr x = c_mgr c ->
            c_key x <> c_key c).
  { intros i x Hx Hmx Hk. assert (Rx : registered w (c_mgr x) (c_key x) i).
    { apply U1; auto. rewrite Hmx. unfold mstrong_of. now rewrite Hm. }
    rewrite Hmx, Hk in Rx. now apply (registered_get _ _ _ _ _ Rx Hm). }
  split.
  - intros cid x Hx P. rewrite C in Hx. apply nth_app_inv in Hx as [Hx|[-> ->]]; [|exact Rn].
    apply R, U1; auto. now rewrite <- S.
  - intros i j x y Hx Hy E K. rewrite C in Hx, Hy.
    apply nth_app_inv in Hx as [Hx|[-> ->]]; apply nth_app_inv in Hy as [Hy|[-> ->]].
    + now apply (U2 i j x y).
    + exfalso. now apply (New i x).
    + exfalso. now apply (New j y).
    + reflexivity.
Qed.

Lemma registered_upd w w' mi m f :
  nth_error (w_mgrs w) mi = Some m -> incl (m_reg m) (m_reg (f m)) ->
  w_mgrs w' = upd (w_mgrs w) mi f ->
  forall mj k cid, registered w mj k cid -> registered w' mj k cid.
Proof.
  intros Hm Hf E mj k cid (m' & Hm' & I). destruct (Nat.eq_dec mi mj) as [->|Nj].
  - rewrite Hm in Hm'. injection Hm' as <-. exists (f m). rewrite E, nth_upd_eq, Hm.
    split; [reflexivity|]. now apply Hf.
  - exists m'. rewrite E, nth_upd_ne by exact Nj. auto.
Qed.

Lemma mstrong_upd l mi m f j :
  nth_error l mi = Some m -> m_strong (f m) = m_strong m ->
  mstrong_of (upd l mi f) j = mstrong_of l j.
Proof.
  intros Hm Hf. unfold mstrong_of. rewrite nth_upd.
  destruct (Nat.eqb_spec mi j) as [<-|]; [|reflexivity]. now rewrite Hm.
Qed.

Lemma uniq_create e loaded w mi m k :
  core e loaded [] w -> nth_error (w_mgrs w) mi = Some m -> m_strong m >= 1 ->
  uniq w -> uniq (fst (get_or_register e mi k w)).
Proof.
  intros Iv Hm Hs U. unfold get_or_register. rewrite Hm.
  destruct (reg_get (m_reg m) k) as [cid|] eqn:G.
  - cbn [fst]. apply (uniq_base w); auto.
    + cbn. apply base_upd_retain.
    + intros cid' c Hc. apply (o_content _ _ _ _ Iv _ _ Hc).
  - cbv zeta. destruct (e_debug e && _).
    { apply (uniq_base w); auto. intros cid' c Hc. apply (o_content _ _ _ _ Iv _ _ Hc). }
    set (id := new_id _ _ _). set (text := style_text _ _).
    assert (Add : forall f d hs, m_reg (f m) = m_reg m ++ [(k, List.length (w_contents w))] ->
              m_strong (f m) = m_strong m ->
              uniq (mk_world (S (w_draws w)) (w_contents w ++ [mk_content id k text mi false 2])
                      (upd (w_mgrs w) mi f) d hs (w_mhandles w))).
    { intros f d hs Hf Hf'.
      apply (uniq_add w _ mi m (mk_content id k text mi false 2));
        [reflexivity|reflexivity|exact Hm|exact Hs|exact G| | | |exact U].
      - exists (f m). cbn. rewrite nth_upd_eq, Hm. split; [reflexivity|]. rewrite Hf.
        apply in_app_iff. right. now left.
      - intros j. cbn. now apply (mstrong_upd _ _ m).
      - apply (registered_upd _ _ mi m f); auto. rewrite Hf. intros x Ix. apply in_app_iff. auto. }
    destruct (m_data m) as [l|] eqn:D; cbn [fst].
    + unfold admit_content. cbn. rewrite upd_upd. now apply Add.
    + destruct (mount _ _ _ _ _); cbn [fst]; [now apply Add|].
      apply (uniq_base w); auto. intros cid' c Hc. apply (o_content _ _ _ _ Iv _ _ Hc).
Qed.

Lemma uniq_load_one w mi m r w' :
  nth_error (w_mgrs w) mi = Some m -> m_strong m >= 1 -> load_one mi r w = Some w' ->
  uniq w -> uniq w' /\ exists m', nth_error (w_mgrs w') mi = Some m' /\ m_strong m' >= 1.
Proof.
  intros Hm Hs E U. unfold load_one in E. rewrite Hm in E.
  destruct (reg_get (m_reg m) (r_key r)) as [cid|] eqn:G.
  - assert (w' = w) as ->.
    { destruct (nth_error _ cid); [destruct (str_eqb _ _); [|discriminate]|]; congruence. }
    eauto.
  - cbv zeta in E. injection E as <-. split.
    + match goal with |- uniq (with_mgrs (with_contents w (_ ++ [?c])) _) =>
        apply (uniq_add w _ mi m c);
        [reflexivity|reflexivity|exact Hm|exact Hs|exact G| | | |exact U] end.
      * eexists. cbn. rewrite nth_upd_eq, Hm. split; [reflexivity|]. cbn.
        apply in_app_iff. right. now left.
      * intros j. cbn. now apply (mstrong_upd _ _ m).
      * eapply (registered_upd _ _ mi m _ Hm); [|reflexivity].
        cbn. intros x Ix. apply in_app_iff. auto.
    + eexists. cbn. rewrite nth_upd_eq, Hm. split; [reflexivity|exact Hs].
Qed.

Lemma uniq_load_data l w mi m :
  nth_error (w_mgrs w) mi = Some m -> m_strong m >= 1 ->
  uniq w -> uniq (fst (load_data mi l w)).
Proof.
  revert w m. induction l as [|r l IH]; intros w m Hm Hs U; [exact U|].
  cbn [load_data]. destruct (load_one mi r w) as [w1|] eqn:E; [|exact U].
  destruct (uniq_load_one _ _ _ _ _ Hm Hs E U) as (U1 & m1 & Hm1 & Hs1). now apply (IH w1 m1).
Qed.

Lemma uniq_step e loaded w o :
  core e loaded [] w -> (forall h, o <> OUnregister h) ->
  uniq w -> uniq (fst (step e w o)).
Proof.
  intros Iv Hu U.
  assert (L : forall cid c, nth_error (w_contents w) cid = Some c -> c_mgr c < List.length (w_mgrs w)).
  { intros cid c Hc. apply (o_content _ _ _ _ Iv _ _ Hc). }
  pose proof (fun mi k cid R => step_registered e w o mi k cid R Hu) as R.
  destruct o; cbn [step] in *.
  - apply (uniq_base w); auto.
    + unfold build. destruct (e_wasm e); [|reflexivity]. destruct cont; [reflexivity|].
      destruct (e_document e); [|reflexivity]. now destruct (e_head e).
    + intros mi P Q.
      assert (G : forall x, mstrong_of (w_mgrs w ++ [x]) mi = mstrong_of (w_mgrs w) mi).
      { intros x. unfold mstrong_of. now rewrite nth_error_app1. }
      revert P. unfold build. destruct (e_wasm e); [|cbn; now rewrite G].
      destruct cont; [cbn; now rewrite G|]. destruct (e_document e); [|auto].
      destruct (e_head e); [cbn; now rewrite G|auto].
  - apply (uniq_base w); auto.
    + unfold clone_manager. now destruct (handle_of _ _).
    + intros mi P Q. unfold clone_manager in P.
      destruct (handle_of (w_mhandles w) h) as [mj|] eqn:H; [|exact P].
      destruct (core_manager _ _ _ _ _ _ Iv H) as (m & Hm & Hs). cbn in P.
      unfold mstrong_of in *. rewrite nth_upd in P.
      destruct (Nat.eqb_spec mj mi) as [->|]; [now rewrite Hm|exact P].
  - apply (uniq_base w); auto.
    + unfold drop_manager. destruct (handle_of _ _); [|reflexivity].
      destruct (nth_error _ _); [|reflexivity]. cbv zeta. destruct (Nat.eqb _ 0); [|reflexivity].
      cbn [fst]. match goal with |- map base (w_contents (release_all e ?x ?y)) = _ =>
        destruct (release_all_frame e x y) as (_ & _ & _ & _ & ->) end. reflexivity.
    + intros mi P Q. unfold drop_manager in P.
      destruct (handle_of (w_mhandles w) h) as [mj|] eqn:H; [|exact P].
      destruct (core_manager _ _ _ _ _ _ Iv H) as (m & Hm & Hs). rewrite Hm in P.
      cbv zeta in P. destruct (Nat.eqb _ 0); cbn [fst] in P.
      * match type of P with mstrong_of (w_mgrs (release_all e ?x ?y)) _ >= _ =>
          destruct (release_all_frame e x y) as (_ & F & _); rewrite F in P end. cbn in P.
        unfold mstrong_of in *. rewrite nth_upd in P.
        destruct (Nat.eqb_spec mj mi) as [->|]; [now rewrite Hm|exact P].
      * cbn in P. unfold mstrong_of in *. rewrite nth_upd in P.
        destruct (Nat.eqb_spec mj mi) as [->|]; [now rewrite Hm|exact P].
  - destruct (handle_of (w_mhandles w) h) as [mj|] eqn:H; [|exact U].
    destruct (core_manager _ _ _ _ _ _ Iv H) as (m & Hm & Hs).
    now apply (uniq_create e loaded w mj m).
  - apply (uniq_base w); auto.
    + unfold clone_style. destruct (handle_of _ _); [|reflexivity]. apply base_upd_retain.
    + intros mi P Q. unfold clone_style in P. destruct (handle_of _ _); exact P.
  - apply (uniq_base w); auto.
    + unfold drop_style. destruct (handle_of _ _); [|reflexivity]. cbn [fst].
      match goal with |- map base (w_contents (release e ?x ?y)) = _ =>
        destruct (release_frame e x y) as (_ & _ & _ & _ & ->) end. reflexivity.
    + intros mi P Q. unfold drop_style in P. destruct (handle_of _ _); [|exact P]. cbn [fst] in P.
      match type of P with mstrong_of (w_mgrs (release e ?x ?y)) _ >= _ =>
        destruct (release_frame e x y) as (_ & F & _); rewrite F in P end. exact P.
  - exfalso. now apply (Hu h).
  - destruct (handle_of (w_mhandles w) h) as [mj|] eqn:H; [|exact U].
    destruct (core_manager _ _ _ _ _ _ Iv H) as (m & Hm & Hs).
    now apply (uniq_load_data d w mj m).
  - destruct (handle_of (w_mhandles w) h); exact U.
  - exact U.
  - exact U.
Qed.

Definition is_unregister (o : op) : bool := match o with OUnregister _ => true | _ => false end.

Lemma reaches_uniq e page l w :
  reaches e page l w -> forallb (fun o => negb (is_unregister o)) l = true -> uniq w.
Proof.
  intros [rs R] Ok.
  pose proof (run_ind e (loaded_ids l) uniq (fun o => negb (is_unregister o)) l (start page)) as H.
  rewrite R in H. cbn [fst] in H. apply H; auto.
  - intros w0 o I Hok U. apply (uniq_step e (loaded_ids l)); auto.
    intros h ->. discriminate Hok.
  - eapply inv_core, start_inv.
  - split; [intros [|i] c Hc; discriminate Hc | intros [|i] j c d Hc; discriminate Hc].
Qed.

(** Managers only disappear. *)
Lemma mgr_still_alive e loaded w o mi :
  core e loaded [] w -> mi < List.length (w_mgrs w) ->
  mstrong_of (w_mgrs (fst (step e w o))) mi >= 1 -> mstrong_of (w_mgrs w) mi >= 1.
Proof.
  intros Iv Q. destruct o; cbn [step].
  - assert (G : forall x, mstrong_of (w_mgrs w ++ [x]) mi = mstrong_of (w_mgrs w) mi).
    { intros x. unfold mstrong_of. now rewrite nth_error_app1. }
    unfold build. destruct (e_wasm e); [|cbn; now rewrite G].
    destruct cont; [cbn; now rewrite G|]. destruct (e_document e); [|auto].
    destruct (e_head e); [cbn; now rewrite G|auto].
  - unfold clone_manager.
    destruct (handle_of (w_mhandles w) h) as [mj|] eqn:H; [|auto].
    destruct (core_manager _ _ _ _ _ _ Iv H) as (m & Hm & Hs). cbn.
    unfold mstrong_of in *. rewrite nth_upd.
    destruct (Nat.eqb_spec mj mi) as [->|]; [now rewrite Hm|auto].
  - unfold drop_manager.
    destruct (handle_of (w_mhandles w) h) as [mj|] eqn:H; [|auto].
    destruct (core_manager _ _ _ _ _ _ Iv H) as (m & Hm & Hs). rewrite Hm.
    cbv zeta. destruct (Nat.eqb _ 0); cbn [fst].
    + match goal with |- mstrong_of (w_mgrs (release_all e ?x ?y)) _ >= _ -> _ =>
        destruct (release_all_frame e x y) as (_ & F & _); rewrite F end. cbn.
      unfold mstrong_of in *. rewrite nth_upd.
      destruct (Nat.eqb_spec mj mi) as [->|]; [now rewrite Hm|auto].
    + cbn. unfold mstrong_of in *. rewrite nth_upd.
      destruct (Nat.eqb_spec mj mi) as [->|]; [now rewrite Hm|auto].
  - destruct (handle_of (w_mhandles w) h) as [mj|] eqn:H; [|auto].
    destruct (core_manager _ _ _ _ _ _ Iv H) as (m & Hm & Hs).
    unfold get_or_register. rewrite Hm. destruct (reg_get _ _); [auto|]. cbv zeta.
    destruct (e_debug e && _); [auto|]. destruct (m_data m).
    + unfold admit_content. cbn. rewrite upd_upd. rewrite (mstrong_upd _ _ m); auto.
    + destruct (mount _ _ _ _ _); [|auto]. cbn. rewrite (mstrong_upd _ _ m); auto.
  - unfold clone_style. destruct (handle_of _ _); auto.
  - unfold drop_style. destruct (handle_of _ _); [|auto]. cbn [fst].
    match goal with |- mstrong_of (w_mgrs (release e ?x ?y)) _ >= _ -> _ =>
      destruct (release_frame e x y) as (_ & F & _); rewrite F end. auto.
  - unfold unregister_style. destruct (handle_of _ _) as [cid|]; [|auto].
    destruct (nth_error _ cid) as [c|]; [|auto].
    destruct (nth_error (w_mgrs w) (c_mgr c)) as [m|] eqn:Hm; [|auto].
    destruct (Nat.eqb _ 0); [auto|]. destruct (reg_remove _ _) as [r o]. cbn [fst].
    assert (G : mstrong_of (upd (w_mgrs w) (c_mgr c) (set_reg r)) mi = mstrong_of (w_mgrs w) mi).
    { now apply (mstrong_upd _ _ m). }
    destruct o as [x|]; [|cbn; rewrite G; auto].
    match goal with |- mstrong_of (w_mgrs (release e ?x ?y)) _ >= _ -> _ =>
      destruct (release_frame e x y) as (_ & F & _); rewrite F end. cbn. rewrite G. auto.
  - destruct (handle_of (w_mhandles w) h) as [mj|] eqn:H; [|auto].
    assert (G : forall l w, mstrong_of (w_mgrs (fst (load_data mj l w))) mi = mstrong_of (w_mgrs w) mi).
    { clear. induction l as [|r l IH]; intros w; [reflexivity|]. cbn [load_data].
      destruct (load_one mj r w) as [w1|] eqn:E; [|reflexivity]. rewrite IH.
      unfold load_one in E. destruct (nth_error (w_mgrs w) mj) as [m|] eqn:Hm; [|now injection E as <-].
      destruct (reg_get _ _) as [cid|].
      - destruct (nth_error _ cid); [destruct (str_eqb _ _); [|discriminate]|]; now injection E as <-.
      - injection E as <-. cbn. now apply (mstrong_upd _ _ m). }
    now rewrite G.
  - destruct (handle_of (w_mhandles w) h); auto.
  - auto.
  - auto.
Qed.

(** A registration lasts while the manager exists and nothing is unregistered. *)
Lemma run_registered e loaded l w mi k cid :
  core e loaded [] w ->
  forallb (fun o => negb (is_unregister o)) l = true ->
  mstrong_of (w_mgrs (fst (run e w l))) mi >= 1 ->
  registered w mi k cid -> registered (fst (run e w l)) mi k cid.
Proof.
  intros I Ok P R.
  apply (core_mono _ _ (loaded ++ loaded_ids l)) in I; [|apply incl_appl, incl_refl].
  pose proof (run_ind e (loaded ++ loaded_ids l)
     (fun w => mi < List.length (w_mgrs w)
               /\ (mstrong_of (w_mgrs w) mi >= 1 -> registered w mi k cid))
     (fun o => negb (is_unregister o)) l w) as G.
  apply G; auto.
  2:{ intros id Iid. apply in_app_iff. auto. }
  - intros w0 o I0 Hok [H1 H2]. split.
    + clear -H1 I0. assert (Len : List.length (w_mgrs w0) <= List.length (w_mgrs (fst (step e w0 o)))).
      { destruct o; cbn [step].
        - unfold build. destruct (e_wasm e); [|cbn; rewrite app_length; lia].
          destruct cont; [cbn; rewrite app_length; lia|]. destruct (e_document e); [|cbn; lia].
          destruct (e_head e); cbn; rewrite ?app_length; lia.
        - unfold clone_manager. destruct (handle_of _ _); cbn; rewrite ?upd_length; lia.
        - unfold drop_manager. destruct (handle_of _ _); [|cbn; lia].
          destruct (nth_error _ _); [|cbn; lia]. cbv zeta.
          destruct (Nat.eqb _ 0); cbn [fst]; [|cbn; rewrite upd_length; lia].
          match goal with |- context [release_all e ?x ?y] =>
            destruct (release_all_frame e x y) as (_ & F & _); rewrite F end.
          cbn. rewrite upd_length. lia.
        - destruct (handle_of _ _) as [mj|]; [|cbn; lia]. unfold get_or_register.
          destruct (nth_error _ mj) as [m|]; [|cbn; lia]. destruct (reg_get _ _); [cbn; lia|].
          cbv zeta. destruct (e_debug e && _); [cbn; lia|].
          destruct (m_data m); [|destruct (mount _ _ _ _ _)]; cbn; rewrite ?upd_length; lia.
        - unfold clone_style. destruct (handle_of _ _); cbn; lia.
        - unfold drop_style. destruct (handle_of _ _); [|cbn; lia]. cbn [fst].
          match goal with |- context [release e ?x ?y] =>
            destruct (release_frame e x y) as (_ & F & _); rewrite F end. cbn; lia.
        - unfold unregister_style. destruct (handle_of _ _) as [c0|]; [|cbn; lia].
          destruct (nth_error _ c0) as [c|]; [|cbn; lia].
          destruct (nth_error (w_mgrs w0) (c_mgr c)); [|cbn; lia].
          destruct (Nat.eqb _ 0); [cbn; lia|]. destruct (reg_remove _ _) as [r [x|]]; cbn [fst].
          + match goal with |- context [release e ?x ?y] =>
              destruct (release_frame e x y) as (_ & F & _); rewrite F end.
            cbn. rewrite upd_length. lia.
          + cbn. rewrite upd_length. lia.
        - destruct (handle_of _ _) as [mj|]; [|cbn; lia].
          assert (G : forall l w, List.length (w_mgrs (fst (load_data mj l w)))
                                  = List.length (w_mgrs w)).
          { clear. induction l as [|r l IH]; intros w; [reflexivity|]. cbn [load_data].
            destruct (load_one mj r w) as [w1|] eqn:E; [|reflexivity]. rewrite IH.
            unfold load_one in E. destruct (nth_error (w_mgrs w) mj) as [m|]; [|now injection E as <-].
            destruct (reg_get _ _) as [cid|].
            - destruct (nth_error _ cid); [destruct (str_eqb _ _); [|discriminate]|];
                now injection E as <-.
            - injection E as <-. cbn. apply upd_length. }
          rewrite G. lia.
        - destruct (handle_of _ _); cbn; lia.
        - cbn; lia.
        - cbn; lia. }
      lia.
    + intros P0. apply step_registered; auto.
      * apply H2. now apply (mgr_still_alive e (loaded ++ loaded_ids l) w0 o).
      * intros h ->. discriminate Hok.
  - split; [|auto]. destruct R as (m & Hm & _). now apply nth_lt in Hm.
Qed.

(** ** Loading *)

(** Loading records with different keys into a manager that has none of them. *)
Lemma load_data_fresh l : forall w mi m,
  nth_error (w_mgrs w) mi = Some m ->
  NoDup (map r_key l) ->
  (forall r, In r l -> reg_get (m_reg m) (r_key r) = None) ->
  exists w' m', load_data mi l w = (w', RDone)
    /\ w_dom w' = w_dom w /\ w_draws w' = w_draws w /\ w_mhandles w' = w_mhandles w
    /\ w_handles w' = w_handles w
    /\ nth_error (w_mgrs w') mi = Some m'
    /\ (forall x, In x (m_reg m) -> In x (m_reg m'))
    /\ (forall cid c, nth_error (w_contents w) cid = Some c -> nth_error (w_contents w') cid = Some c)
    /\ forall r, In r l -> exists cid c, In (r_key r, cid) (m_reg m')
         /\ nth_error (w_contents w') cid = Some c /\ c_id c = r_id r
         /\ c_key c = r_key r /\ c_hydrated c = true
         /\ c_text c = to_style_str (Some (r_id r)) (k_ast (r_key r)).
Proof.
  induction l as [|r l IH]; intros w mi m Hm ND G.
  - exists w, m. cbn. repeat split; auto. intros r [].
  - cbn [map] in ND. apply NoDup_cons_iff in ND as [Nr ND]. cbn [load_data].
    unfold load_one. rewrite Hm, (G r (or_introl eq_refl)). cbv zeta.
    set (c := mk_content _ _ _ _ _ _).
    match goal with |- context [load_data mi l ?w'] => set (w1 := w') end.
    set (m1 := set_reg (m_reg m ++ [(r_key r, List.length (w_contents w))]) m).
    destruct (IH w1 mi m1) as (w' & m' & A & B & C & D & E & F & K & K2 & L).
    + cbn. now rewrite nth_upd_eq, Hm.
    + exact ND.
    + intros x Ix. apply reg_get_none. cbn. rewrite map_app, in_app_iff. cbn. intros [J|[J|[]]].
      * specialize (G x (or_intror Ix)). apply reg_get_none in G. contradiction.
      * apply Nr. rewrite J. now apply in_map.
    + exists w', m'. repeat split; auto.
      * intros x Ix. apply K. cbn. apply in_app_iff. auto.
      * intros cid d Hd. apply K2. cbn. now apply nth_app_old.
      * intros x [<-|Ix]; [|now apply L].
        exists (List.length (w_contents w)), c. repeat split.
        -- apply K. cbn. apply in_app_iff. right. now left.
        -- apply K2. cbn. apply nth_app_new.
Qed.

(** The keys of the records of a server manager, without unregistration. *)
Lemma server_keys w mi m l :
  data_ok w -> uniq w -> nth_error (w_mgrs w) mi = Some m -> m_data m = Some l ->
  NoDup (map r_key l).
Proof.
  intros D [_ U] Hm Hl. rewrite (D _ _ _ Hm Hl). rewrite map_map. cbn.
  change (fun x => c_key x) with c_key.
  assert (G : forall cs off, (forall i c, nth_error cs i = Some c -> nth_error (w_contents w) (off + i) = Some c) ->
              NoDup (map c_key (filter (made_by mi) cs))).
  { induction cs as [|c cs IH]; intros off H; [constructor|].
    assert (H' : forall i d, nth_error cs i = Some d -> nth_error (w_contents w) (S off + i) = Some d).
    { intros i d Hi. replace (S off + i) with (off + S i) by lia. now apply H. }
    cbn [filter]. destruct (made_by mi c) eqn:M; [|now apply (IH (S off))].
    cbn [map]. constructor; [|now apply (IH (S off))].
    intros I. apply in_map_iff in I as (d & K & I). apply filter_In in I as [I M'].
    apply In_nth_error in I as [i Hi].
    assert (Q : off + 0 = S off + i).
    { apply (U _ _ c d); [now apply H|now apply H'| |congruence].
      unfold made_by in M, M'. apply andb_prop in M as [_ M], M' as [_ M'].
      apply Nat.eqb_eq in M, M'. congruence. }
    lia. }
  apply (G _ 0). auto.
Qed.

(** ** Contents never change but in their counts *)

Lemma load_data_contents mi l w cid c :
  nth_error (w_contents w) cid = Some c ->
  nth_error (w_contents (fst (load_data mi l w))) cid = Some c.
Proof.
  revert w. induction l as [|r l IH]; intros w Hc; [exact Hc|].
  cbn [load_data]. destruct (load_one mi r w) as [w1|] eqn:E; [|exact Hc]. apply IH.
  unfold load_one in E. destruct (nth_error (w_mgrs w) mi) as [m|]; [|now injection E as <-].
  destruct (reg_get _ _) as [x|].
  - destruct (nth_error _ x); [destruct (str_eqb _ _); [|discriminate]|]; now injection E as <-.
  - injection E as <-. cbn. now apply nth_app_old.
Qed.

Lemma step_contents e w o cid c :
  nth_error (w_contents w) cid = Some c ->
  exists d, nth_error (w_contents (fst (step e w o))) cid = Some d /\ base d = base c.
Proof.
  intros Hc.
  assert (K : forall w', map base (w_contents w') = map base (w_contents w) ->
            exists d, nth_error (w_contents w') cid = Some d /\ base d = base c).
  { intros w' B. now apply (base_nth (w_contents w) (w_contents w')). }
  assert (Same : exists d, nth_error (w_contents w) cid = Some d /\ base d = base c) by eauto.
  destruct o; cbn [step].
  - unfold build. destruct (e_wasm e); [|exact Same]. destruct cont; [exact Same|].
    destruct (e_document e); [|exact Same]. now destruct (e_head e).
  - unfold clone_manager. now destruct (handle_of _ _).
  - apply K. unfold drop_manager. destruct (handle_of _ _); [|reflexivity].
    destruct (nth_error (w_mgrs w) _); [|reflexivity]. cbv zeta. destruct (Nat.eqb _ 0); [|reflexivity].
    cbn [fst]. match goal with |- map base (w_contents (release_all e ?x ?y)) = _ =>
      destruct (release_all_frame e x y) as (_ & _ & _ & _ & ->) end. reflexivity.
  - destruct (handle_of _ _) as [mi|]; [|exact Same]. unfold get_or_register.
    destruct (nth_error (w_mgrs w) mi) as [m|]; [|exact Same].
    destruct (reg_get _ _) as [x|]; [apply K, base_upd_retain|]. cbv zeta.
    destruct (e_debug e && _); [exact Same|].
    destruct (m_data m); [|destruct (mount _ _ _ _ _); [|exact Same]];
      exists c; (split; [cbn; now apply nth_app_old|reflexivity]).
  - unfold clone_style. destruct (handle_of _ _); [|exact Same]. apply K, base_upd_retain.
  - apply K. unfold drop_style. destruct (handle_of _ _); [|reflexivity]. cbn [fst].
    match goal with |- map base (w_contents (release e ?x ?y)) = _ =>
      destruct (release_frame e x y) as (_ & _ & _ & _ & ->) end. reflexivity.
  - apply K. unfold unregister_style. destruct (handle_of _ _) as [x|]; [|reflexivity].
    destruct (nth_error (w_contents w) x) as [d|]; [|reflexivity].
    destruct (nth_error (w_mgrs w) (c_mgr d)); [|reflexivity].
    destruct (Nat.eqb _ 0); [reflexivity|]. destruct (reg_remove _ _) as [r [y|]]; cbn [fst];
      [|reflexivity].
    match goal with |- map base (w_contents (release e ?x ?y)) = _ =>
      destruct (release_frame e x y) as (_ & _ & _ & _ & ->) end. reflexivity.
  - destruct (handle_of _ _) as [mi|]; [|exact Same]. exists c.
    split; [now apply load_data_contents|reflexivity].
  - destruct (handle_of _ _); exact Same.
  - exact Same.
  - exact Same.
Qed.

Lemma run_contents e l w cid c :
  nth_error (w_contents w) cid = Some c ->
  exists d, nth_error (w_contents (fst (run e w l))) cid = Some d /\ base d = base c.
Proof.
  revert w c. induction l as [|o l IH]; intros w c Hc; [eauto|]. rewrite run_cons.
  destruct (step_contents e w o cid c Hc) as (d & Hd & B).
  destruct (IH _ _ Hd) as (d' & Hd' & B'). exists d'. split; [exact Hd'|congruence].
Qed.

(** ** Loading, exactly: when it panics and what is registered afterwards *)

Definition idof (m : mgr) (w : world) (k : key) : option str :=
  match reg_get (m_reg m) k with
  | Some cid => option_map c_id (nth_error (w_contents w) cid)
  | None => None
  end.
Definition wf_reg (m : mgr) (w : world) : Prop :=
  forall k cid, reg_get (m_reg m) k = Some cid -> cid < List.length (w_contents w).

Lemma reg_get_snoc r k c k' :
  reg_get (r ++ [(k, c)]) k' = match reg_get r k' with
    | Some x => Some x | None => if key_eqb k k' then Some c else None end.
Proof.
  induction r as [|[a b] r IH]; cbn; [reflexivity|]. destruct (key_eqb a k'); auto.
Qed.

Lemma load_one_known mi m r w id : nth_error (w_mgrs w) mi = Some m ->
  idof m w (r_key r) = Some id -> load_one mi r w = if str_eqb id (r_id r) then Some w else None.
Proof.
  unfold idof, load_one. intros -> E. destruct (reg_get _ _) as [cid|]; [|discriminate].
  destruct (nth_error _ cid) as [c|]; [|discriminate]. now injection E as <-.
Qed.

Lemma load_one_new mi m r w : nth_error (w_mgrs w) mi = Some m -> wf_reg m w ->
  idof m w (r_key r) = None ->
  exists w1 m1, load_one mi r w = Some w1 /\ nth_error (w_mgrs w1) mi = Some m1 /\ wf_reg m1 w1
    /\ w_mhandles w1 = w_mhandles w
    /\ idof m1 w1 (r_key r) = Some (r_id r)
    /\ forall k, k <> r_key r -> idof m1 w1 k = idof m w k.
Proof.
  intros Hm Wf E. unfold load_one. rewrite Hm. assert (N : reg_get (m_reg m) (r_key r) = None).
  { unfold idof in E. destruct (reg_get _ _) as [cid|] eqn:G; [|reflexivity].
    apply Wf in G. apply nth_error_Some in G. now destruct (nth_error _ cid). }
  rewrite N. do 2 eexists. split; [reflexivity|]. split; [cbn; rewrite nth_upd_eq, Hm; reflexivity|].
  split; [|split; [reflexivity|split]].
  - intros k cid. cbn [set_reg m_reg with_mgrs with_contents w_contents]. rewrite reg_get_snoc, app_length. cbn.
    destruct (reg_get (m_reg m) k) as [x|] eqn:G.
    + intros [= <-]. apply Wf in G. lia.
    + destruct (key_eqb _ _); [|discriminate]. intros [= <-]. lia.
  - unfold idof. cbn [set_reg m_reg with_mgrs with_contents w_contents].
    rewrite reg_get_snoc, N, key_eqb_refl, nth_error_app2, Nat.sub_diag by lia. reflexivity.
  - intros k Hk. unfold idof. cbn [set_reg m_reg with_mgrs with_contents w_contents].
    rewrite reg_get_snoc. destruct (reg_get (m_reg m) k) as [x|] eqn:G.
    + apply Wf in G. now rewrite nth_error_app1.
    + destruct (key_eqb _ _) eqn:K; [|reflexivity]. apply key_eqb_eq in K. now elim Hk.
Qed.

Lemma load_data_exact mi l : forall w m, nth_error (w_mgrs w) mi = Some m -> wf_reg m w ->
  exists w1 m1 res, load_data mi l w = (w1, res) /\ nth_error (w_mgrs w1) mi = Some m1 /\ wf_reg m1 w1
    /\ w_mhandles w1 = w_mhandles w
    /\ ((res = RDone /\ (forall r, In r l -> idof m1 w1 (r_key r) = Some (r_id r))
         /\ (forall k id, idof m w k = Some id -> idof m1 w1 k = Some id)
         /\ (forall k id, idof m1 w1 k = Some id ->
               idof m w k = Some id \/ exists r, In r l /\ r_key r = k /\ r_id r = id))
        \/ (res = RPanic /\
            ((exists r id, In r l /\ idof m w (r_key r) = Some id /\ id <> r_id r)
             \/ exists r1 r2, In r1 l /\ In r2 l /\ r_key r1 = r_key r2 /\ r_id r1 <> r_id r2))).
Proof.
  induction l as [|r l IH]; intros w m Hm Wf.
  - exists w, m, RDone. cbn. split; [reflexivity|]. repeat (split; auto). left. repeat (split; auto). intros r [].
  - cbn [load_data]. destruct (idof m w (r_key r)) as [id|] eqn:E.
    + rewrite (load_one_known _ _ _ _ _ Hm E). destruct (str_eqb id (r_id r)) eqn:S.
      * apply str_eqb_eq in S. subst id. destruct (IH w m Hm Wf) as (w1 & m1 & res & L & H1 & H2 & H3 & H4).
        exists w1, m1, res. rewrite L. split; [reflexivity|]. repeat (split; auto).
        destruct H4 as [(-> & A & B & C)|(-> & [(r1 & id & A & B)|(r1 & r2 & A & B & C)])].
        -- left. split; [reflexivity|]. split; [|split; [exact B|]].
           ++ intros x [<-|Hx]; auto.
           ++ intros k id H. destruct (C _ _ H) as [|(x & Hx & K)]; [now left|]. right. exists x. split; [now right|exact K].
        -- right. split; [reflexivity|]. left. exists r1, id. split; [now right|exact B].
        -- right. split; [reflexivity|]. right. exists r1, r2. split; [now right|]. split; [now right|exact C].
      * exists w, m, RPanic. split; [reflexivity|]. repeat (split; auto). right. split; [reflexivity|]. left.
        exists r, id. split; [now left|]. split; [exact E|]. intros ->. rewrite str_eqb_refl in S. discriminate.
    + destruct (load_one_new _ _ _ _ Hm Wf E) as (w0 & m0 & L0 & Hm0 & Wf0 & M0 & I0 & I0').
      rewrite L0. destruct (IH w0 m0 Hm0 Wf0) as (w1 & m1 & res & L & H1 & H2 & H3 & H4).
      exists w1, m1, res. split; [exact L|]. split; [exact H1|]. split; [exact H2|]. split; [congruence|].
      assert (D : forall k, k = r_key r \/ k <> r_key r).
      { intros k. destruct (key_eqb k (r_key r)) eqn:K; [left; now apply key_eqb_eq|right].
        intros ->. now rewrite key_eqb_refl in K. }
      destruct H4 as [(-> & A & B & C)|(-> & [(r1 & id & A & B & C)|(r1 & r2 & A & B & C)])].
      * left. split; [reflexivity|]. split; [|split].
        -- intros x [<-|Hx]; auto.
        -- intros k id H. apply B. destruct (D k) as [->|Hk]; [congruence|]. now rewrite I0'.
        -- intros k id H. destruct (C _ _ H) as [F|(x & Hx & K)].
           ++ destruct (D k) as [->|Hk].
              ** right. exists r. rewrite I0 in F. injection F as ->. split; [now left|]. now split.
              ** left. now rewrite I0' in F.
           ++ right. exists x. split; [now right|exact K].
      * right. split; [reflexivity|]. destruct (D (r_key r1)) as [K|K].
        -- right. exists r, r1. split; [now left|]. split; [now right|]. split; [congruence|].
           rewrite K, I0 in B. injection B as ->. exact C.
        -- left. exists r1, id. split; [now right|]. rewrite I0' in B by exact K. now split.
      * right. split; [reflexivity|]. right. exists r1, r2. split; [now right|]. split; [now right|exact C].
Qed.
