(** * ManagerCore: the part of the invariant that needs no assumption on ids: counts,
    registries, texts, origins of ids and recorded data. *)

From Coq Require Import String Ascii List NArith Bool Arith Lia.
From Verif Require Import Str StrFacts Ast Render CssParser Ids IdFacts Manager SpecManager
  ManagerFacts ManagerInv ManagerSteps.
Import ListNotations.
Local Open Scope list_scope.
Local Opaque parse to_style_str.
Local Arguments cnt : simpl never.
Local Arguments live : simpl never.
Local Arguments reg_refs : simpl never.
Local Arguments made_by : simpl never.
Local Arguments new_id : simpl never.
Local Arguments style_text : simpl never.

(** An id was drawn here or came with loaded data. *)
Definition origin_ok (e : env) (loaded : list str) (w : world) : Prop :=
  forall cid c, nth_error (w_contents w) cid = Some c ->
  if c_hydrated c then In (c_id c) loaded else exists n, n < w_draws w /\ made_id e n c.

Record core (e : env) (loaded : list str) (extra : list nat) (w : world) : Prop := mk_core
  { o_counted : counted extra w;
    o_mcounted : mcounted w;
    o_reg : reg_ok w;
    o_content : content_ok w;
    o_origin : origin_ok e loaded w;
    o_data : data_ok w }.

Lemma inv_core e page loaded extra w : inv e page loaded extra w -> core e loaded extra w.
Proof. intros [I1 I2 I3 I4 [I5 _] I6 I7 I8]. split; auto. Qed.

Lemma base_origin_ok e loaded w w' :
  map base (w_contents w') = map base (w_contents w) -> w_draws w <= w_draws w' ->
  origin_ok e loaded w -> origin_ok e loaded w'.
Proof.
  intros E M H1 cid c Hc. destruct (base_nth _ _ _ _ E Hc) as (c' & Hc' & B').
  specialize (H1 _ _ Hc'). apply base_fields in B'. destruct B' as (B1 & B2 & B3 & B4 & B5).
  rewrite <- B5, <- B1. destruct (c_hydrated c'); [exact H1|].
  destruct H1 as (n & Hn & Hm). exists n. split; [lia|]. unfold made_id in *. congruence.
Qed.

Lemma core_mono e loaded loaded' extra w :
  incl loaded loaded' -> core e loaded extra w -> core e loaded' extra w.
Proof.
  intros Il [I1 I2 I3 I4 I5 I6]. split; auto. intros cid c Hc. specialize (I5 _ _ Hc).
  destruct (c_hydrated c); auto.
Qed.

Section Core.
Variables (e : env) (loaded : list str).
Notation Core := (core e loaded).

Lemma core_held extra w h cid :
  Core extra w -> handle_of (w_handles w) h = Some cid ->
  exists c, nth_error (w_contents w) cid = Some c /\ c_strong c >= 1.
Proof.
  intros I H. apply content_in. rewrite (o_counted _ _ _ _ I).
  apply handle_live in H. lia.
Qed.

Lemma core_registered extra w mi m k cid :
  Core extra w -> nth_error (w_mgrs w) mi = Some m -> In (k, cid) (m_reg m) ->
  exists c, nth_error (w_contents w) cid = Some c /\ c_strong c >= 1.
Proof.
  intros I H J. apply content_in. rewrite (o_counted _ _ _ _ I).
  pose proof (reg_refs_in _ _ _ _ _ H J). lia.
Qed.

Lemma core_manager extra w h mi :
  Core extra w -> handle_of (w_mhandles w) h = Some mi ->
  exists m, nth_error (w_mgrs w) mi = Some m /\ m_strong m >= 1.
Proof.
  intros I H. apply handle_live in H. rewrite <- (o_mcounted _ _ _ _ I) in H.
  unfold mstrong_of in H. destruct (nth_error (w_mgrs w) mi); [eauto|lia].
Qed.

Lemma core_release cid extra w : Core (cid :: extra) w -> Core extra (release e cid w).
Proof.
  intros I. destruct (release_frame e cid w) as (F1 & F2 & F3 & F4 & F5).
  split.
  - apply release_counted, I.
  - intros mi. rewrite F2, F4. apply (o_mcounted _ _ _ _ I).
  - apply (base_reg_ok w); auto. apply (o_reg _ _ _ _ I).
  - apply (base_content_ok w); auto. apply (o_content _ _ _ _ I).
  - apply (base_origin_ok _ _ w); auto; [lia|]. apply (o_origin _ _ _ _ I).
  - apply (base_data_ok w); auto. apply (o_data _ _ _ _ I).
Qed.

Lemma core_release_all l extra w : Core (l ++ extra) w -> Core extra (release_all e l w).
Proof.
  revert w. induction l as [|cid l IH]; intros w I; [exact I|].
  cbn [release_all fold_left]. apply IH. now apply core_release.
Qed.

Lemma core_handles extra extra' w hs :
  (forall x, cnt extra x + cnt (live (w_handles w)) x = cnt extra' x + cnt (live hs) x) ->
  Core extra w -> Core extra' (with_handles w hs).
Proof.
  intros H [I1 I2 I3 I4 I5 I6]. split; auto.
  intros x. cbn. rewrite (I1 x). specialize (H x). lia.
Qed.

Lemma core_dom extra w d : Core extra w -> Core extra (with_dom w d).
Proof. intros [I1 I2 I3 I4 I5 I6]. split; auto. Qed.

Lemma core_share extra w cid c :
  Core extra w -> nth_error (w_contents w) cid = Some c ->
  Core extra (with_handles (retain cid w) (w_handles (retain cid w) ++ [Some cid])).
Proof.
  intros [I1 I2 I3 I4 I5 I6] E.
  assert (B : map base (w_contents (retain cid w)) = map base (w_contents w))
    by apply base_upd_retain.
  split.
  - intros x. cbn. rewrite strong_of_upd, E. cbn [set_strong c_strong].
    rewrite cnt_live_app. specialize (I1 x). destruct (Nat.eqb_spec cid x) as [->|]; [|lia].
    unfold strong_of in I1. rewrite E in I1. lia.
  - exact I2.
  - now apply (base_reg_ok w).
  - now apply (base_content_ok w).
  - apply (base_origin_ok _ _ w); auto.
  - now apply (base_data_ok w).
Qed.

Lemma core_mgr extra extra' w mi m f hs :
  nth_error (w_mgrs w) mi = Some m ->
  m_data (f m) = m_data m ->
  NoDup (map fst (m_reg (f m))) -> (m_strong (f m) = 0 -> m_reg (f m) = []) ->
  (forall k cid, In (k, cid) (m_reg (f m)) -> In (k, cid) (m_reg m)) ->
  (forall x, cnt extra x + cnt (map snd (m_reg m)) x
             = cnt extra' x + cnt (map snd (m_reg (f m))) x) ->
  (forall j, (if Nat.eqb mi j then m_strong (f m) else mstrong_of (w_mgrs w) j)
             = cnt (live hs) j) ->
  Core extra w -> Core extra' (with_mhandles (with_mgrs w (upd (w_mgrs w) mi f)) hs).
Proof.
  intros Hm Hd Hnd H0 Hin Hx Hj [I1 I2 I3 I4 I5 I6]. split; auto.
  - intros x. cbn. rewrite (I1 x).
    pose proof (cnt_flat_upd (fun m => map snd (m_reg m)) (w_mgrs w) mi f m x Hm) as Q.
    cbv beta in Q. unfold reg_refs. specialize (Hx x). lia.
  - intros j. cbn. rewrite <- Hj. unfold mstrong_of. rewrite nth_upd.
    destruct (Nat.eqb_spec mi j) as [<-|]; [|reflexivity]. now rewrite Hm.
  - intros j m' Hm'. cbn in Hm'. rewrite nth_upd in Hm'.
    destruct (Nat.eqb_spec mi j) as [<-|].
    + rewrite Hm in Hm'. injection Hm' as <-. repeat split; auto.
      intros k cid Ik. destruct (I3 _ _ Hm) as (_ & _ & I3'). apply I3', Hin, Ik.
    + apply (I3 _ _ Hm').
  - intros cid c Hcc. destruct (I4 _ _ Hcc). cbn. rewrite upd_length. auto.
  - intros j m' l Hm' Hl. cbn in Hm'. rewrite nth_upd in Hm'.
    destruct (Nat.eqb_spec mi j) as [<-|].
    + rewrite Hm in Hm'. injection Hm' as <-. apply (I6 _ m); [auto|congruence].
    + apply (I6 _ _ _ Hm' Hl).
Qed.

Lemma core_build extra w p k a s : Core extra w -> Core extra (fst (build e p k a s w)).
Proof.
  intros I.
  assert (G : forall k', Core extra
     (with_mhandles
       (with_mgrs w (w_mgrs w ++ [mk_mgr p k' a (if s then Some [] else None) [] 1]))
       (w_mhandles w ++ [Some (List.length (w_mgrs w))]))).
  { intros k'. destruct I as [I1 I2 I3 I4 I5 I6]. split; auto.
    - intros x. cbn. rewrite (I1 x). unfold reg_refs. rewrite flat_map_app, cnt_app.
      cbn [flat_map m_reg map app]. rewrite (cnt_nil x). lia.
    - intros j. cbn. rewrite cnt_live_app, <- I2. unfold mstrong_of.
      destruct (Nat.eqb_spec (List.length (w_mgrs w)) j) as [<-|].
      + rewrite nth_app_new. cbn.
        assert (nth_error (w_mgrs w) (List.length (w_mgrs w)) = None) as ->
          by (apply nth_error_None; lia). reflexivity.
      + destruct (nth_error (w_mgrs w ++ _) j) eqn:E.
        * apply nth_app_inv in E as [->|[-> _]]; [lia|congruence].
        * apply nth_error_None in E. rewrite app_length in E. cbn in E.
          assert (nth_error (w_mgrs w) j = None) as -> by (apply nth_error_None; lia).
          reflexivity.
    - intros j m Hm. cbn in Hm. apply nth_app_inv in Hm as [Hm|[-> ->]].
      + apply (I3 _ _ Hm).
      + cbn. repeat split; [constructor | intros ? ? []].
    - intros cid c Hc. destruct (I4 _ _ Hc). cbn. rewrite app_length. cbn. split; [lia|auto].
    - intros j m l Hm Hl. cbn in Hm. apply nth_app_inv in Hm as [Hm|[-> ->]].
      + apply (I6 _ _ _ Hm Hl).
      + cbn in Hl. destruct s; [|discriminate]. injection Hl as <-. cbn.
        destruct (filter _ _) eqn:F; [reflexivity|exfalso].
        assert (In c (filter (made_by (List.length (w_mgrs w))) (w_contents w)))
          by (rewrite F; now left).
        apply filter_In in H as [H Q]. apply In_nth_error in H as [i H].
        destruct (I4 _ _ H). unfold made_by in Q. apply andb_prop in Q as [_ Q].
        apply Nat.eqb_eq in Q. lia. }
  unfold build. destruct (e_wasm e); [|apply G]. destruct k; [apply G|].
  destruct (e_document e); [|exact I]. destruct (e_head e); [apply G|exact I].
Qed.

Lemma core_clone_manager extra w h :
  Core extra w -> Core extra (fst (clone_manager h w)).
Proof.
  intros I. unfold clone_manager. destruct (handle_of (w_mhandles w) h) as [mi|] eqn:H; [|exact I].
  destruct (core_manager _ _ _ _ I H) as (m & Hm & Hs). cbn [fst].
  destruct (o_reg _ _ _ _ I _ _ Hm) as (R1 & R2 & R3).
  apply (core_mgr extra extra w mi m); cbn; auto.
  - discriminate.
  - intros j. rewrite cnt_live_app, <- (o_mcounted _ _ _ _ I). unfold mstrong_of.
    destruct (Nat.eqb_spec mi j) as [<-|]; [rewrite Hm|]; lia.
Qed.

Lemma core_drop_manager w h : Core [] w -> Core [] (fst (drop_manager e h w)).
Proof.
  intros I. unfold drop_manager.
  destruct (handle_of (w_mhandles w) h) as [mi|] eqn:H; [|exact I].
  destruct (core_manager _ _ _ _ I H) as (m & Hm & Hs). rewrite Hm. cbv zeta.
  destruct (o_reg _ _ _ _ I _ _ Hm) as (R1 & R2 & R3).
  assert (J : forall f, m_strong (f m) = Nat.pred (m_strong m) ->
     forall j, (if Nat.eqb mi j then m_strong (f m) else mstrong_of (w_mgrs w) j)
               = cnt (live (upd (w_mhandles w) h (fun _ => None))) j).
  { intros f Hf j. pose proof (cnt_live_drop _ _ _ j H) as Q.
    pose proof (o_mcounted _ _ _ _ I j) as Q'. unfold mstrong_of in Q' |- *.
    destruct (Nat.eqb_spec mi j) as [Q0|Q0]; [rewrite <- Q0, Hm in Q'; rewrite <- Q0 in Q |- *|];
      lia. }
  destruct (Nat.eqb_spec (Nat.pred (m_strong m)) 0) as [Z|Z]; cbn [fst].
  - apply core_release_all. rewrite app_nil_r.
    apply (core_mgr [] (map snd (m_reg m)) w mi m); cbn; auto.
    + constructor.
    + intros k cid [].
    + apply (J (fun m => set_mstrong 0 (set_reg [] m))). cbn. lia.
  - apply (core_mgr [] [] w mi m); cbn; auto; try (intros; lia).
    apply (J (set_mstrong (Nat.pred (m_strong m)))). reflexivity.
Qed.

Lemma core_clone_style w h : Core [] w -> Core [] (fst (clone_style h w)).
Proof.
  intros I. unfold clone_style. destruct (handle_of (w_handles w) h) as [cid|] eqn:H; [|exact I].
  destruct (core_held _ _ _ _ I H) as (c & Hc & P). cbn [fst]. now apply (core_share _ _ _ c).
Qed.

Lemma core_drop_style w h : Core [] w -> Core [] (fst (drop_style e h w)).
Proof.
  intros I. unfold drop_style. destruct (handle_of (w_handles w) h) as [cid|] eqn:H; [|exact I].
  cbn [fst]. apply core_release.
  apply (core_handles []); [|exact I]. intros x. pose proof (cnt_live_drop _ _ _ x H).
  rewrite cnt_cons, cnt_nil. lia.
Qed.

Lemma core_unregister w h : Core [] w -> Core [] (fst (unregister_style e h w)).
Proof.
  intros I. unfold unregister_style.
  destruct (handle_of (w_handles w) h) as [cid|] eqn:H; [|exact I].
  destruct (nth_error (w_contents w) cid) as [c|] eqn:Hc; [|exact I].
  destruct (nth_error (w_mgrs w) (c_mgr c)) as [m|] eqn:Hm; [|exact I].
  destruct (Nat.eqb_spec (m_strong m) 0) as [Z|Z]; [exact I|].
  destruct (o_reg _ _ _ _ I _ _ Hm) as (R1 & R2 & R3).
  destruct (reg_remove (m_reg m) (c_key c)) as [r o] eqn:R. cbn [fst].
  destruct (reg_remove_spec _ _ _ _ R) as [(-> & -> & _)|(a & x & b & -> & Ea & -> & _)].
  - apply (core_mgr [] [] w (c_mgr c) m (set_reg (m_reg m)) (w_mhandles w)); cbn; auto.
    intros j. rewrite <- (o_mcounted _ _ _ _ I). unfold mstrong_of.
    destruct (Nat.eqb_spec (c_mgr c) j) as [<-|]; [now rewrite Hm|reflexivity].
  - apply core_release.
    apply (core_mgr [] [x] w (c_mgr c) m (set_reg (a ++ b)) (w_mhandles w)); cbn; auto.
    + rewrite Ea in R1. rewrite map_app in R1 |- *. cbn in R1. now apply NoDup_remove_1 in R1.
    + intros Q. contradiction.
    + intros k y Iy. rewrite Ea. rewrite in_app_iff in Iy |- *. cbn. tauto.
    + intros y. rewrite Ea, !map_app, !cnt_app. cbn [map snd]. rewrite !cnt_cons, !cnt_nil. lia.
    + intros j. rewrite <- (o_mcounted _ _ _ _ I). unfold mstrong_of.
      destruct (Nat.eqb_spec (c_mgr c) j) as [<-|]; [now rewrite Hm|reflexivity].
Qed.

(** A new content, with [n] references outside the registry. *)
Lemma core_add w mi m k c f d hs ds n :
  Core [] w -> nth_error (w_mgrs w) mi = Some m ->
  reg_get (m_reg m) k = None -> m_strong m >= 1 ->
  c_key c = k -> c_mgr c = mi -> c_text c = text_of c -> c_strong c = S n ->
  (forall x, cnt (live hs) x
     = cnt (live (w_handles w)) x + if Nat.eqb (List.length (w_contents w)) x then n else 0) ->
  w_draws w <= ds ->
  (if c_hydrated c then In (c_id c) loaded else exists n, n < ds /\ made_id e n c) ->
  f m = mk_mgr (m_prefix m) (m_container m) (m_append m)
          (match m_data m with
           | Some l => Some (if c_hydrated c then l else l ++ [record_of c])
           | None => None end)
          (m_reg m ++ [(k, List.length (w_contents w))]) (m_strong m) ->
  Core [] (mk_world ds (w_contents w ++ [c]) (upd (w_mgrs w) mi f) d hs (w_mhandles w)).
Proof.
  intros [I1 I2 I3 I4 I5 I6] Hm Hg Hs Hk Hmi Ht Hn Hh Hds Ho Hf.
  set (cid := List.length (w_contents w)) in *.
  assert (Hnone : nth_error (w_contents w) cid = None) by (apply nth_error_None; unfold cid; lia).
  split.
  - intros x. cbn. rewrite Hh.
    pose proof (cnt_flat_upd (fun m => map snd (m_reg m)) (w_mgrs w) mi f m x Hm) as Q.
    cbv beta in Q. rewrite Hf in Q. cbn [m_reg] in Q. rewrite map_app, cnt_app in Q.
    cbn [map snd] in Q. rewrite cnt_cons, !cnt_nil in Q.
    specialize (I1 x). unfold reg_refs in *. rewrite cnt_nil in *. unfold strong_of in *.
    destruct (Nat.eqb_spec cid x) as [<-|Nx].
    + unfold cid at 1. rewrite nth_app_new. rewrite Hnone in I1. lia.
    + destruct (nth_error (w_contents w ++ [c]) x) as [y|] eqn:Y.
      * apply nth_app_inv in Y as [Y|[Y _]]; [rewrite Y in I1; lia|].
        exfalso. apply Nx. now rewrite Y.
      * assert (nth_error (w_contents w) x = None) as Z.
        { apply nth_error_None. apply nth_error_None in Y. rewrite app_length in Y. cbn in Y. lia. }
        rewrite Z in I1. lia.
  - intros j. cbn. rewrite <- I2. unfold mstrong_of. rewrite nth_upd.
    destruct (Nat.eqb_spec mi j) as [<-|]; [|reflexivity]. rewrite Hm. cbn. now rewrite Hf.
  - intros j m' Hm'. cbn in Hm'. rewrite nth_upd in Hm'.
    destruct (Nat.eqb_spec mi j) as [<-|].
    + rewrite Hm in Hm'. cbn in Hm'. injection Hm' as <-. rewrite Hf. cbn.
      destruct (I3 _ _ Hm) as (R1 & R2 & R3). repeat split.
      * rewrite map_app. cbn. apply reg_get_none in Hg.
        apply NoDup_Add with (a := k) (l := map fst (m_reg m)).
        -- rewrite <- (app_nil_r (map fst (m_reg m))) at 1. apply Add_app.
        -- split; assumption.
      * lia.
      * intros k' y Iy. apply in_app_iff in Iy as [Iy|[[= <- <-]|[]]].
        -- destruct (R3 _ _ Iy) as (z & Z & Q). exists z. split; [|exact Q]. now apply nth_app_old.
        -- exists c. split; [apply nth_app_new|]. split; auto.
    + destruct (I3 _ _ Hm') as (R1 & R2 & R3). repeat split; auto.
      intros k' y Iy. destruct (R3 _ _ Iy) as (z & Z & Q). exists z. split; [|exact Q].
      now apply nth_app_old.
  - intros x y Hy. cbn in Hy |- *. rewrite upd_length.
    apply nth_app_inv in Hy as [Hy|[_ ->]]; [apply (I4 _ _ Hy)|].
    rewrite Hmi. split; [now apply nth_lt in Hm | exact Ht].
  - intros x y Hy. cbn in Hy |- *. apply nth_app_inv in Hy as [Hy|[_ ->]]; [|exact Ho].
    specialize (I5 _ _ Hy). destruct (c_hydrated y); [exact I5|].
    destruct I5 as (i & Hi & M). exists i. split; [lia|exact M].
  - intros j m' l Hm' Hl. cbn in Hm' |- *. rewrite nth_upd in Hm'.
    rewrite filter_app, map_app. cbn [filter]. unfold made_by at 2. rewrite Hmi.
    destruct (Nat.eqb_spec mi j) as [<-|Nj].
    + rewrite Hm in Hm'. cbn in Hm'. injection Hm' as <-. rewrite Hf in Hl. cbn in Hl.
      destruct (m_data m) as [l0|] eqn:D; [|discriminate]. injection Hl as <-.
      rewrite andb_true_r. destruct (c_hydrated c); cbn [negb map].
      * rewrite app_nil_r. now apply (I6 _ _ _ Hm).
      * f_equal. now apply (I6 _ _ _ Hm).
    + rewrite andb_false_r, app_nil_r. apply (I6 _ _ _ Hm' Hl).
Qed.

Lemma core_draw extra w : Core extra w -> Core extra (draw w).
Proof.
  intros [I1 I2 I3 I4 I5 I6]. split; auto. apply (base_origin_ok _ _ w); auto. cbn. lia.
Qed.

Lemma core_create w mi k m :
  Core [] w -> nth_error (w_mgrs w) mi = Some m -> m_strong m >= 1 ->
  Core [] (fst (get_or_register e mi k w)).
Proof.
  intros I Hm Hs. unfold get_or_register. rewrite Hm.
  destruct (reg_get (m_reg m) k) as [cid|] eqn:G.
  - cbn [fst]. apply reg_get_in in G.
    destruct (core_registered _ _ _ _ _ _ I Hm G) as (c & Hc & P).
    now apply (core_share _ _ _ c).
  - cbv zeta. destruct (e_debug e && _); [now apply core_draw|].
    assert (H1 : forall x, cnt (live (w_handles w ++ [Some (List.length (w_contents w))])) x
        = cnt (live (w_handles w)) x + if Nat.eqb (List.length (w_contents w)) x then 1 else 0).
    { intros x. now rewrite cnt_live_app. }
    destruct (m_data m) as [l|] eqn:D; cbn [fst].
    + unfold admit_content. cbn. rewrite upd_upd.
      apply (core_add w mi m k _ _ _ _ _ 1); auto.
      * cbn. exists (w_draws w). split; [lia|reflexivity].
      * rewrite D. unfold set_data, set_reg. cbn. reflexivity.
    + destruct (mount e m _ _ _) as [d|] eqn:M; cbn [fst].
      * unfold admit_content. cbn.
        apply (core_add w mi m k _ _ _ _ _ 1); auto.
        -- cbn. exists (w_draws w). split; [lia|reflexivity].
        -- rewrite D. unfold set_reg. now rewrite D.
      * apply core_dom. now apply core_draw.
Qed.

Lemma core_load_one w mi m r w' :
  Core [] w -> nth_error (w_mgrs w) mi = Some m -> m_strong m >= 1 ->
  In (r_id r) loaded -> load_one mi r w = Some w' ->
  Core [] w' /\ exists m', nth_error (w_mgrs w') mi = Some m' /\ m_strong m' >= 1.
Proof.
  intros I Hm Hs Il. unfold load_one. rewrite Hm.
  destruct (reg_get (m_reg m) (r_key r)) as [cid|] eqn:G.
  - destruct (nth_error (w_contents w) cid) as [c|].
    + destruct (str_eqb _ _); [|discriminate]. intros [= <-]. eauto.
    + intros [= <-]. eauto.
  - cbv zeta. intros [= <-]. split.
    + apply (core_add w mi m (r_key r) _ _ _ _ _ 0); auto.
      * intros x. cbn. destruct (Nat.eqb _ x); lia.
      * unfold set_reg. cbn. now destruct (m_data m).
    + eexists. cbn. rewrite nth_upd_eq, Hm. split; [reflexivity|exact Hs].
Qed.

Lemma core_load_data l w mi m :
  Core [] w -> nth_error (w_mgrs w) mi = Some m -> m_strong m >= 1 ->
  (forall r, In r l -> In (r_id r) loaded) ->
  Core [] (fst (load_data mi l w)).
Proof.
  revert w m. induction l as [|r l IH]; intros w m I Hm Hs Hl; [now cbn|].
  cbn [load_data]. destruct (load_one mi r w) as [w1|] eqn:E; [|now cbn].
  destruct (core_load_one _ _ _ _ _ I Hm Hs (Hl r (or_introl eq_refl)) E)
    as (I1 & m1 & Hm1 & Hs1).
  apply (IH w1 m1); auto. intros; apply Hl. now right.
Qed.

Lemma core_step w o :
  Core [] w -> (forall id, In id (loaded_ids [o]) -> In id loaded) ->
  Core [] (fst (step e w o)).
Proof.
  intros I Hl. destruct o; cbn [step] in *.
  - now apply core_build.
  - now apply core_clone_manager.
  - now apply core_drop_manager.
  - destruct (handle_of (w_mhandles w) h) as [mi|] eqn:H; [|exact I].
    destruct (core_manager _ _ _ _ I H) as (m & Hm & Hs). now apply (core_create w mi k m).
  - now apply core_clone_style.
  - now apply core_drop_style.
  - now apply core_unregister.
  - destruct (handle_of (w_mhandles w) h) as [mi|] eqn:H; [|exact I].
    destruct (core_manager _ _ _ _ I H) as (m & Hm & Hs).
    apply (core_load_data d w mi m); auto. intros r Ir. apply Hl. cbn.
    rewrite app_nil_r. now apply in_map.
  - destruct (handle_of (w_mhandles w) h); exact I.
  - now apply core_dom.
  - now apply core_dom.
Qed.

Lemma run_cons w o l :
  fst (run e w (o :: l)) = fst (run e (fst (step e w o)) l).
Proof.
  cbn [run]. destruct (step e w o) as [w1 r]. cbn [fst]. now destruct (run e w1 l).
Qed.

Lemma run_app w l1 l2 : fst (run e w (l1 ++ l2)) = fst (run e (fst (run e w l1)) l2).
Proof.
  revert w. induction l1 as [|o l1 IH]; intros w; [reflexivity|].
  cbn [app]. now rewrite !run_cons, IH.
Qed.

(** Facts along a history. *)
Lemma run_ind (P : world -> Prop) (ok : op -> bool) l w :
  (forall w o, Core [] w -> ok o = true -> P w -> P (fst (step e w o))) ->
  Core [] w -> (forall id, In id (loaded_ids l) -> In id loaded) ->
  forallb ok l = true -> P w -> P (fst (run e w l)).
Proof.
  intros St. revert w. induction l as [|o l IH]; intros w I Hl Ok HP; [exact HP|].
  rewrite run_cons in *. cbn in Ok. apply andb_prop in Ok as [Ok1 Ok2].
  apply IH; auto.
  - apply core_step; auto.
    intros id Iid. apply Hl. cbn in *. rewrite app_nil_r in Iid. apply in_app_iff. auto.
  - intros id Iid. apply Hl. cbn. apply in_app_iff. auto.
Qed.

Lemma core_run l w :
  Core [] w -> (forall id, In id (loaded_ids l) -> In id loaded) -> Core [] (fst (run e w l)).
Proof.
  revert w. induction l as [|o l IH]; intros w I Hl; [exact I|].
  rewrite run_cons. apply IH.
  - apply core_step; auto.
    intros id Iid. apply Hl. cbn in *. rewrite app_nil_r in Iid. apply in_app_iff. auto.
  - intros id Iid. apply Hl. cbn. apply in_app_iff. auto.
Qed.
End Core.

Lemma reaches_core e page l w : reaches e page l w -> core e (loaded_ids l) [] w.
Proof.
  intros [rs R].
  pose proof (core_run e (loaded_ids l) l (start page)
     (inv_core _ _ _ _ _ (start_inv e page _)) (fun _ H => H)) as H.
  now rewrite R in H.
Qed.
