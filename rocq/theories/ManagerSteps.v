(** * ManagerSteps: every operation preserves the invariant. *)

From Coq Require Import String Ascii List NArith Bool Arith Lia.
From Verif Require Import Str StrFacts Ast Render CssParser Ids IdFacts Manager SpecManager
  ManagerFacts ManagerInv.
Import ListNotations.
Local Open Scope list_scope.
Local Opaque parse to_style_str.
Local Arguments cnt : simpl never.
Local Arguments live : simpl never.
Local Arguments reg_refs : simpl never.
Local Arguments texts_of : simpl never.
Local Arguments gone : simpl never.
Local Arguments place : simpl never.
Local Arguments shown : simpl never.
Local Arguments made_by : simpl never.
Local Arguments new_id : simpl never.
Local Arguments style_text : simpl never.

Lemma upd_ext {A} (l : list A) i f g a :
  nth_error l i = Some a -> f a = g a -> upd l i f = upd l i g.
Proof.
  intros E H. destruct (upd_split _ _ f _ E) as (p & q & -> & <- & ->).
  clear E. induction p as [|x p IH]; cbn; [now rewrite H | now rewrite IH].
Qed.

Lemma upd_upd {A} (l : list A) i f g : upd (upd l i f) i g = upd l i (fun x => g (f x)).
Proof. revert i. induction l; intros [|i]; cbn; auto. now rewrite IHl. Qed.

Lemma cnt_live_app l c x : cnt (live (l ++ [Some c])) x = cnt (live l) x + (if Nat.eqb c x then 1 else 0).
Proof. unfold live. rewrite flat_map_app, cnt_app. cbn [flat_map app]. rewrite cnt_cons, cnt_nil. lia. Qed.

Lemma handle_nth l h c : handle_of l h = Some c -> nth_error l h = Some (Some c).
Proof. unfold handle_of. destruct (nth_error l h) as [[x|]|]; congruence. Qed.

Lemma handle_live l h c : handle_of l h = Some c -> cnt (live l) c >= 1.
Proof.
  intros H. apply handle_nth in H. apply nth_error_In in H. apply cnt_pos.
  apply in_flat_map. exists (Some c). split; [exact H | now left].
Qed.

Lemma live_handle l c : cnt (live l) c >= 1 -> exists h, handle_of l h = Some c.
Proof.
  intros H. apply cnt_pos in H. apply in_flat_map in H as ([x|] & I & J); [|destruct J].
  destruct J as [->|[]]. apply In_nth_error in I as [h I]. exists h. unfold handle_of. now rewrite I.
Qed.

Lemma cnt_live_drop l h c x :
  handle_of l h = Some c ->
  cnt (live (upd l h (fun _ => None))) x + (if Nat.eqb c x then 1 else 0) = cnt (live l) x.
Proof.
  intros H. apply handle_nth in H.
  pose proof (cnt_flat_upd (fun o => match o with Some c => [c] | None => [] end) l h
                (fun _ => None) _ x H) as E.
  cbv beta iota in E. rewrite cnt_cons, !cnt_nil in E. unfold live. lia.
Qed.

Lemma place_app mgrs m c :
  c_mgr c < List.length mgrs -> place (mgrs ++ [m]) c = place mgrs c.
Proof. intros H. unfold place. now rewrite nth_error_app1. Qed.

Lemma place_upd mgrs mi m f c :
  nth_error mgrs mi = Some m -> m_container (f m) = m_container m ->
  (m_data (f m) = None <-> m_data m = None) ->
  place (upd mgrs mi f) c = place mgrs c.
Proof.
  intros H C D. unfold place. rewrite nth_upd. destruct (c_hydrated c); [reflexivity|].
  destruct (Nat.eqb_spec mi (c_mgr c)) as [<-|]; [|reflexivity].
  rewrite H. cbn [option_map]. rewrite C.
  destruct (m_data (f m)), (m_data m); try reflexivity; intuition discriminate.
Qed.

Lemma shown_place e page mgrs mgrs' k c :
  place mgrs' c = place mgrs c -> shown e page mgrs' k c = shown e page mgrs k c.
Proof. intros H. unfold shown. now rewrite H. Qed.

Lemma dom_ok_mgrs e page w w' :
  w_dom w' = w_dom w -> w_contents w' = w_contents w ->
  (forall c, In c (w_contents w) -> place (w_mgrs w') c = place (w_mgrs w) c) ->
  dom_ok e page w -> dom_ok e page w'.
Proof.
  intros D C P [H1 H2]. unfold dom_ok. rewrite D, C. split; [exact H1|]. intros k n Hn.
  destruct (H2 _ _ Hn) as (n0 & A & B & E & F). exists n0. repeat split; auto. rewrite F.
  f_equal. apply filter_ext_in. intros c Ic. symmetry. apply shown_place. auto.
Qed.

Section Steps.
Variables (e : env) (page : dom) (loaded : list str) (N : nat).
Hypothesis apart : draws_apart (e_draw e) N.
Hypothesis page_fresh : forall id, In id (page_ids page) -> not_drawn (e_draw e) N id.
Hypothesis loaded_fresh : forall id, In id loaded -> not_drawn (e_draw e) N id.

Notation Inv := (inv e page loaded).

Lemma content_in w cid : strong_of (w_contents w) cid >= 1 ->
  exists c, nth_error (w_contents w) cid = Some c /\ c_strong c >= 1.
Proof. unfold strong_of. destruct (nth_error (w_contents w) cid); [eauto|lia]. Qed.

Lemma held_content extra w h cid :
  Inv extra w -> handle_of (w_handles w) h = Some cid ->
  exists c, nth_error (w_contents w) cid = Some c /\ c_strong c >= 1.
Proof.
  intros I H. apply content_in. rewrite (i_counted _ _ _ _ _ I).
  apply handle_live in H. lia.
Qed.

Lemma reg_refs_in mgrs mi m k cid :
  nth_error mgrs mi = Some m -> In (k, cid) (m_reg m) -> cnt (reg_refs mgrs) cid >= 1.
Proof.
  intros H I. apply cnt_pos. apply in_flat_map. exists m. split.
  - eapply nth_error_In; eauto.
  - apply in_map_iff. now exists (k, cid).
Qed.

Lemma registered_content extra w mi m k cid :
  Inv extra w -> nth_error (w_mgrs w) mi = Some m -> In (k, cid) (m_reg m) ->
  exists c, nth_error (w_contents w) cid = Some c /\ c_strong c >= 1.
Proof.
  intros I H J. apply content_in. rewrite (i_counted _ _ _ _ _ I).
  pose proof (reg_refs_in _ _ _ _ _ H J). lia.
Qed.

(** ** Handles *)

Lemma inv_handles extra extra' w hs :
  (forall x, cnt extra x + cnt (live (w_handles w)) x = cnt extra' x + cnt (live hs) x) ->
  Inv extra w -> Inv extra' (with_handles w hs).
Proof.
  intros H [I1 I2 I3 I4 I5 I6 I7 I8]. split; auto.
  intros x. cbn. rewrite (I1 x). specialize (H x). lia.
Qed.

Lemma inv_share extra w cid c :
  Inv extra w -> nth_error (w_contents w) cid = Some c -> c_strong c >= 1 ->
  Inv extra (with_handles (retain cid w) (w_handles (retain cid w) ++ [Some cid])).
Proof.
  intros [I1 I2 I3 I4 I5 I6 I7 I8] E P.
  assert (B : map base (w_contents (retain cid w)) = map base (w_contents w))
    by apply base_upd_retain.
  split.
  - intros x. cbn. rewrite strong_of_upd, E. cbn [set_strong c_strong].
    rewrite cnt_live_app. specialize (I1 x). destruct (Nat.eqb_spec cid x) as [->|]; [|lia].
    unfold strong_of in I1. rewrite E in I1. lia.
  - exact I2.
  - now apply (base_reg_ok w).
  - now apply (base_content_ok w).
  - apply (base_ids_ok _ _ w); auto.
  - now apply (base_data_ok w).
  - destruct I7 as [D1 D2]. split; [exact D1|]. cbn. intros k n Hn.
    destruct (D2 _ _ Hn) as (n0 & A & B' & C & D). exists n0. repeat split; auto.
    rewrite D. symmetry. apply (filter_upd_same _ _ _ _ c E); [|reflexivity].
    unfold shown. cbn [set_strong c_strong c_id].
    replace (place (w_mgrs w) (set_strong (S (c_strong c)) c)) with (place (w_mgrs w) c)
      by reflexivity.
    destruct (c_strong c); [lia|]. reflexivity.
  - intros id Iid. cbn. rewrite (I8 id Iid). f_equal. unfold gone.
    destruct (e_wasm e && e_document e && plain_ident id); [|reflexivity].
    destruct (upd_split _ _ (fun c => set_strong (S (c_strong c)) c) _ E) as (a & b & -> & _ & ->).
    rewrite !filter_app, !app_length. cbn [filter set_strong c_hydrated c_id c_strong Nat.eqb].
    destruct (c_strong c); [lia|]. cbn [Nat.eqb]. now rewrite andb_false_r.
Qed.

(** ** Managers *)

Lemma inv_mgr extra extra' w mi m f hs :
  nth_error (w_mgrs w) mi = Some m ->
  m_container (f m) = m_container m -> m_data (f m) = m_data m ->
  NoDup (map fst (m_reg (f m))) -> (m_strong (f m) = 0 -> m_reg (f m) = []) ->
  (forall k cid, In (k, cid) (m_reg (f m)) -> In (k, cid) (m_reg m)) ->
  (forall x, cnt extra x + cnt (map snd (m_reg m)) x
             = cnt extra' x + cnt (map snd (m_reg (f m))) x) ->
  (forall j, (if Nat.eqb mi j then m_strong (f m) else mstrong_of (w_mgrs w) j)
             = cnt (live hs) j) ->
  Inv extra w -> Inv extra' (with_mhandles (with_mgrs w (upd (w_mgrs w) mi f)) hs).
Proof.
  intros Hm Hc Hd Hnd H0 Hin Hx Hj [I1 I2 I3 I4 I5 I6 I7 I8]. split; auto.
  - intros x. cbn. rewrite (I1 x).
    pose proof (cnt_flat_upd (fun m => map snd (m_reg m)) (w_mgrs w) mi f m x Hm) as Q.
    cbv beta in Q. unfold reg_refs. specialize (Hx x). lia.
  - intros j. cbn. rewrite <- Hj. unfold mstrong_of. rewrite nth_upd.
    destruct (Nat.eqb_spec mi j) as [<-|]; [|reflexivity]. now rewrite Hm.
  - intros j m' Hm'. cbn in Hm'. rewrite nth_upd in Hm'.
    destruct (Nat.eqb_spec mi j) as [<-|].
    + rewrite Hm in Hm'. injection Hm' as <-. repeat split; auto.
      intros k cid Ik. destruct (I3 _ _ Hm) as (_ & _ & I3'). apply I3', Hin, Ik.
    + apply (I3 _ _ Hm').
  - intros cid c Hcc. destruct (I4 _ _ Hcc). cbn. rewrite upd_length. auto.
  - intros j m' l Hm' Hl. cbn in Hm'. rewrite nth_upd in Hm'.
    destruct (Nat.eqb_spec mi j) as [<-|].
    + rewrite Hm in Hm'. injection Hm' as <-. apply (I6 _ m); [auto|congruence].
    + apply (I6 _ _ _ Hm' Hl).
  - apply (dom_ok_mgrs _ _ w); auto. intros c _. cbn. apply (place_upd _ _ m); auto.
    rewrite Hd. tauto.
Qed.

Lemma inv_build extra w p k a s :
  Inv extra w -> Inv extra (fst (build e p k a s w)).
Proof.
  intros I.
  assert (G : forall k', Inv extra
     (with_mhandles
       (with_mgrs w (w_mgrs w ++ [mk_mgr p k' a (if s then Some [] else None) [] 1]))
       (w_mhandles w ++ [Some (List.length (w_mgrs w))]))).
  { intros k'. destruct I as [I1 I2 I3 I4 I5 I6 I7 I8]. split; auto.
    - intros x. cbn. rewrite (I1 x). unfold reg_refs. rewrite flat_map_app, cnt_app.
      cbn [flat_map m_reg map app]. rewrite (cnt_nil x). lia.
    - intros j. cbn. rewrite cnt_live_app, <- I2. unfold mstrong_of.
      destruct (Nat.eqb_spec (List.length (w_mgrs w)) j) as [<-|].
      + rewrite nth_app_new. cbn.
        assert (nth_error (w_mgrs w) (List.length (w_mgrs w)) = None) as ->
          by (apply nth_error_None; lia). reflexivity.
      + destruct (nth_error (w_mgrs w ++ _) j) eqn:E.
        * apply nth_app_inv in E as [->|[-> _]]; [lia|congruence].
        * apply nth_error_None in E. rewrite app_length in E. cbn in E.
          assert (nth_error (w_mgrs w) j = None) as -> by (apply nth_error_None; lia).
          reflexivity.
    - intros j m Hm. cbn in Hm. apply nth_app_inv in Hm as [Hm|[-> ->]].
      + apply (I3 _ _ Hm).
      + cbn. repeat split; [constructor | intros ? ? []].
    - intros cid c Hc. destruct (I4 _ _ Hc). cbn. rewrite app_length. cbn. split; [lia|auto].
    - intros j m l Hm Hl. cbn in Hm. apply nth_app_inv in Hm as [Hm|[-> ->]].
      + apply (I6 _ _ _ Hm Hl).
      + cbn in Hl. destruct s; [|discriminate]. injection Hl as <-. cbn.
        destruct (filter _ _) eqn:F; [reflexivity|exfalso].
        assert (In c (filter (made_by (List.length (w_mgrs w))) (w_contents w)))
          by (rewrite F; now left).
        apply filter_In in H as [H Q]. apply In_nth_error in H as [i H].
        destruct (I4 _ _ H). unfold made_by in Q. apply andb_prop in Q as [_ Q].
        apply Nat.eqb_eq in Q. lia.
    - apply (dom_ok_mgrs _ _ w); auto. intros c Ic. apply place_app.
      apply In_nth_error in Ic as [i Hi]. apply (I4 _ _ Hi). }
  unfold build. destruct (e_wasm e); [|apply G]. destruct k; [apply G|].
  destruct (e_document e); [|exact I]. destruct (e_head e); [apply G|exact I].
Qed.

Lemma handle_manager extra w h mi :
  Inv extra w -> handle_of (w_mhandles w) h = Some mi ->
  exists m, nth_error (w_mgrs w) mi = Some m /\ m_strong m >= 1.
Proof.
  intros I H. apply handle_live in H. rewrite <- (i_mcounted _ _ _ _ _ I) in H.
  unfold mstrong_of in H. destruct (nth_error (w_mgrs w) mi); [eauto|lia].
Qed.

Lemma inv_clone_manager extra w h :
  Inv extra w -> Inv extra (fst (clone_manager h w)).
Proof.
  intros I. unfold clone_manager. destruct (handle_of (w_mhandles w) h) as [mi|] eqn:H; [|exact I].
  destruct (handle_manager _ _ _ _ I H) as (m & Hm & Hs). cbn [fst].
  destruct (i_reg _ _ _ _ _ I _ _ Hm) as (R1 & R2 & R3).
  apply (inv_mgr extra extra w mi m); cbn; auto.
  - discriminate.
  - intros j. rewrite cnt_live_app, <- (i_mcounted _ _ _ _ _ I). unfold mstrong_of.
    destruct (Nat.eqb_spec mi j) as [<-|]; [rewrite Hm|]; lia.
Qed.

Lemma inv_drop_manager w h :
  Inv [] w -> w_draws w <= N -> Inv [] (fst (drop_manager e h w)).
Proof.
  intros I L. unfold drop_manager.
  destruct (handle_of (w_mhandles w) h) as [mi|] eqn:H; [|exact I].
  destruct (handle_manager _ _ _ _ I H) as (m & Hm & Hs). rewrite Hm. cbv zeta.
  destruct (i_reg _ _ _ _ _ I _ _ Hm) as (R1 & R2 & R3).
  assert (J : forall f, m_strong (f m) = Nat.pred (m_strong m) ->
     forall j, (if Nat.eqb mi j then m_strong (f m) else mstrong_of (w_mgrs w) j)
               = cnt (live (upd (w_mhandles w) h (fun _ => None))) j).
  { intros f Hf j. pose proof (cnt_live_drop _ _ _ j H) as Q.
    pose proof (i_mcounted _ _ _ _ _ I j) as Q'. unfold mstrong_of in Q' |- *.
    destruct (Nat.eqb_spec mi j) as [Q0|Q0]; [rewrite <- Q0, Hm in Q'; rewrite <- Q0 in Q |- *|];
      lia. }
  destruct (Nat.eqb_spec (Nat.pred (m_strong m)) 0) as [Z|Z]; cbn [fst].
  - apply (release_all_inv e page loaded N); auto. rewrite app_nil_r.
    apply (inv_mgr [] (map snd (m_reg m)) w mi m); cbn; auto.
    + constructor.
    + intros k cid [].
    + apply (J (fun m => set_mstrong 0 (set_reg [] m))). cbn. lia.
  - apply (inv_mgr [] [] w mi m); cbn; auto; try (intros; lia).
    apply (J (set_mstrong (Nat.pred (m_strong m)))). reflexivity.
Qed.

Lemma inv_clone_style w h : Inv [] w -> Inv [] (fst (clone_style h w)).
Proof.
  intros I. unfold clone_style. destruct (handle_of (w_handles w) h) as [cid|] eqn:H; [|exact I].
  destruct (held_content _ _ _ _ I H) as (c & Hc & P). cbn [fst]. now apply (inv_share _ _ _ c).
Qed.

Lemma inv_drop_style w h :
  Inv [] w -> w_draws w <= N -> Inv [] (fst (drop_style e h w)).
Proof.
  intros I L. unfold drop_style. destruct (handle_of (w_handles w) h) as [cid|] eqn:H; [|exact I].
  cbn [fst]. apply (release_inv e page loaded N); auto.
  apply (inv_handles []); [|exact I]. intros x. pose proof (cnt_live_drop _ _ _ x H).
  rewrite cnt_cons, cnt_nil. lia.
Qed.

Lemma inv_unregister w h :
  Inv [] w -> w_draws w <= N -> Inv [] (fst (unregister_style e h w)).
Proof.
  intros I L. unfold unregister_style.
  destruct (handle_of (w_handles w) h) as [cid|] eqn:H; [|exact I].
  destruct (nth_error (w_contents w) cid) as [c|] eqn:Hc; [|exact I].
  destruct (nth_error (w_mgrs w) (c_mgr c)) as [m|] eqn:Hm; [|exact I].
  destruct (Nat.eqb_spec (m_strong m) 0) as [Z|Z]; [exact I|].
  destruct (i_reg _ _ _ _ _ I _ _ Hm) as (R1 & R2 & R3).
  destruct (reg_remove (m_reg m) (c_key c)) as [r o] eqn:R. cbn [fst].
  destruct (reg_remove_spec _ _ _ _ R) as [(-> & -> & _)|(a & x & b & -> & Ea & -> & _)].
  - apply (inv_mgr [] [] w (c_mgr c) m (set_reg (m_reg m)) (w_mhandles w)); cbn; auto.
    intros j. rewrite <- (i_mcounted _ _ _ _ _ I). unfold mstrong_of.
    destruct (Nat.eqb_spec (c_mgr c) j) as [<-|]; [now rewrite Hm|reflexivity].
  - apply (release_inv e page loaded N); auto.
    apply (inv_mgr [] [x] w (c_mgr c) m (set_reg (a ++ b)) (w_mhandles w)); cbn; auto.
    + rewrite Ea in R1. rewrite map_app in R1 |- *. cbn in R1. now apply NoDup_remove_1 in R1.
    + intros Q. contradiction.
    + intros k y Iy. rewrite Ea. rewrite in_app_iff in Iy |- *. cbn. tauto.
    + intros y. rewrite Ea, !map_app, !cnt_app. cbn [map snd]. rewrite !cnt_cons, !cnt_nil. lia.
    + intros j. rewrite <- (i_mcounted _ _ _ _ _ I). unfold mstrong_of.
      destruct (Nat.eqb_spec (c_mgr c) j) as [<-|]; [now rewrite Hm|reflexivity].
Qed.

(** ** Creation *)

Lemma inv_draw extra w : Inv extra w -> Inv extra (draw w).
Proof.
  intros [I1 I2 I3 I4 I5 I6 I7 I8]. split; auto.
  apply (base_ids_ok _ _ w); auto. cbn. lia.
Qed.

Lemma drawn_fresh w k p g :
  ids_ok e loaded w -> S (w_draws w) <= N -> forall cid c,
  nth_error (w_contents w) cid = Some c ->
  c_id c <> new_id g p (e_draw e (w_draws w + k * 0)).
Proof.
  rewrite Nat.mul_0_r, Nat.add_0_r. intros [H _] L cid c Hc. specialize (H _ _ Hc).
  destruct (c_hydrated c).
  - apply (not_drawn_new e N); [now apply loaded_fresh | lia].
  - destruct H as (n & Hn & M). unfold made_id in M. rewrite M.
    destruct (new_id_dash (k_global (c_key c)) (k_prefix (c_key c)) (e_draw e n)) as [q1 ->].
    destruct (new_id_dash g p (e_draw e (w_draws w))) as [q2 ->].
    apply apart; lia.
Qed.

Lemma fresh_not_page w g p :
  S (w_draws w) <= N -> ~ In (new_id g p (e_draw e (w_draws w))) (page_ids page).
Proof.
  intros L I. apply page_fresh in I. destruct (new_id_dash g p (e_draw e (w_draws w))) as [q E].
  apply (I (w_draws w) ltac:(lia) q E).
Qed.

Lemma unmount_fresh extra w g p :
  Inv extra w -> S (w_draws w) <= N ->
  unmount e (new_id g p (e_draw e (w_draws w))) (w_dom w) = w_dom w.
Proof.
  intros I L. unfold unmount. destruct (_ && _); [|reflexivity].
  apply remove_first_none. intros n In Dn. apply In_nth_error in In as [k Hk].
  match goal with |- ?x = false => destruct x eqn:X; [exfalso|reflexivity] end.
  destruct (elem_origin _ _ _ _ _ _ (i_dom _ _ _ _ _ I) Hk (fresh_not_page w g p L) X)
    as (j & d & Hj & Ed & _).
  apply (drawn_fresh w 0 p g (i_ids _ _ _ _ _ I) L j d Hj). now rewrite Nat.mul_0_r, Nat.add_0_r.
Qed.

Lemma inv_admit w mi m k f d :
  let id := new_id (k_global k) (k_prefix k) (e_draw e (w_draws w)) in
  let text := style_text k id in
  let cid := List.length (w_contents w) in
  let c := mk_content id k text mi false 2 in
  Inv [] w -> S (w_draws w) <= N -> nth_error (w_mgrs w) mi = Some m ->
  reg_get (m_reg m) k = None -> m_strong m >= 1 ->
  f m = mk_mgr (m_prefix m) (m_container m) (m_append m)
          (match m_data m with Some l => Some (l ++ [mk_record k id text]) | None => None end)
          (m_reg m ++ [(k, cid)]) (m_strong m) ->
  match m_data m with
  | Some _ => d = w_dom w
  | None => mount e m id text (w_dom w) = Some d
  end ->
  Inv [] (mk_world (S (w_draws w)) (w_contents w ++ [c]) (upd (w_mgrs w) mi f) d
            (w_handles w ++ [Some cid]) (w_mhandles w)).
Proof.
  intros id text cid c I L Hm Hg Hs Hf Hd.
  assert (Hnew : forall i x, nth_error (w_contents w) i = Some x -> c_id x <> id).
  { intros i x Hx. pose proof (drawn_fresh w 0 (k_prefix k) (k_global k)
      (i_ids _ _ _ _ _ I) L i x Hx) as Q. now rewrite Nat.mul_0_r, Nat.add_0_r in Q. }
  assert (Hpg : ~ In id (page_ids page)) by now apply fresh_not_page.
  destruct I as [I1 I2 I3 I4 I5 I6 I7 I8].
  assert (Hpl : forall x, In x (w_contents w) ->
            place (upd (w_mgrs w) mi f) x = place (w_mgrs w) x).
  { intros x _. apply (place_upd _ _ m); auto; rewrite Hf; cbn; [reflexivity|].
    destruct (m_data m); [split; discriminate | tauto]. }
  assert (Hnone : nth_error (w_contents w) cid = None) by (apply nth_error_None; unfold cid; lia).
  split.
  - intros x. cbn. rewrite cnt_live_app.
    pose proof (cnt_flat_upd (fun m => map snd (m_reg m)) (w_mgrs w) mi f m x Hm) as Q.
    cbv beta in Q. rewrite Hf in Q. cbn [m_reg] in Q. rewrite map_app, cnt_app in Q.
    cbn [map snd] in Q. rewrite cnt_cons, !cnt_nil in Q.
    specialize (I1 x). unfold reg_refs in *. rewrite cnt_nil in *. unfold strong_of in *.
    destruct (Nat.eqb_spec cid x) as [<-|Nx].
    + unfold cid at 1. rewrite nth_app_new. rewrite Hnone in I1. cbn [c c_strong]. lia.
    + destruct (nth_error (w_contents w ++ [c]) x) as [y|] eqn:Y.
      * apply nth_app_inv in Y as [Y|[Y _]]; [rewrite Y in I1; lia|].
        exfalso. apply Nx. now rewrite Y.
      * assert (nth_error (w_contents w) x = None) as Z.
        { apply nth_error_None. apply nth_error_None in Y. rewrite app_length in Y. cbn in Y. lia. }
        rewrite Z in I1. lia.
  - intros j. cbn. rewrite <- I2. unfold mstrong_of. rewrite nth_upd.
    destruct (Nat.eqb_spec mi j) as [<-|]; [|reflexivity]. rewrite Hm. cbn. now rewrite Hf.
  - intros j m' Hm'. cbn in Hm'. rewrite nth_upd in Hm'.
    destruct (Nat.eqb_spec mi j) as [<-|].
    + rewrite Hm in Hm'. cbn in Hm'. injection Hm' as <-. rewrite Hf. cbn.
      destruct (I3 _ _ Hm) as (R1 & R2 & R3). repeat split.
      * rewrite map_app. cbn. apply reg_get_none in Hg.
        apply NoDup_Add with (a := k) (l := map fst (m_reg m)).
        -- rewrite <- (app_nil_r (map fst (m_reg m))) at 1. apply Add_app.
        -- split; assumption.
      * lia.
      * intros k' y Iy. apply in_app_iff in Iy as [Iy|[[= <- <-]|[]]].
        -- destruct (R3 _ _ Iy) as (z & Z & Q). exists z. split; [|exact Q]. now apply nth_app_old.
        -- exists c. split; [apply nth_app_new|]. split; reflexivity.
    + destruct (I3 _ _ Hm') as (R1 & R2 & R3). repeat split; auto.
      intros k' y Iy. destruct (R3 _ _ Iy) as (z & Z & Q). exists z. split; [|exact Q].
      now apply nth_app_old.
  - intros x y Hy. cbn in Hy |- *. rewrite upd_length.
    apply nth_app_inv in Hy as [Hy|[_ ->]]; [apply (I4 _ _ Hy)|].
    cbn. split; [now apply nth_lt in Hm | reflexivity].
  - destruct I5 as [J1 J2]. split.
    + intros x y Hy. cbn in Hy |- *. apply nth_app_inv in Hy as [Hy|[_ ->]].
      * specialize (J1 _ _ Hy). destruct (c_hydrated y); [exact J1|].
        destruct J1 as (n & Hn & M). exists n. split; [lia|exact M].
      * cbn. exists (w_draws w). split; [lia|reflexivity].
    + intros i j x y Hx Hy Hij Hh. cbn in Hx, Hy.
      apply nth_app_inv in Hx as [Hx|[-> ->]]; apply nth_app_inv in Hy as [Hy|[-> ->]].
      * now apply (J2 i j).
      * cbn. now apply (Hnew i).
      * cbn. apply not_eq_sym. now apply (Hnew j).
      * congruence.
  - intros j m' l Hm' Hl. cbn in Hm' |- *. rewrite nth_upd in Hm'.
    rewrite filter_app, map_app. cbn [filter].
    destruct (Nat.eqb_spec mi j) as [<-|Nj].
    + rewrite Hm in Hm'. cbn in Hm'. injection Hm' as <-. rewrite Hf in Hl. cbn in Hl.
      destruct (m_data m) as [l0|] eqn:D; [|discriminate]. injection Hl as <-.
      rewrite (I6 _ _ _ Hm D). f_equal. unfold made_by. cbn. now rewrite Nat.eqb_refl.
    + rewrite (I6 _ _ _ Hm' Hl). unfold made_by at 3. cbn.
      destruct (Nat.eqb_spec mi j); [congruence|]. cbn. now rewrite app_nil_r.
  - (* document *)
    assert (Old : forall k', filter (shown e page (upd (w_mgrs w) mi f) k') (w_contents w)
                  = filter (shown e page (w_mgrs w) k') (w_contents w)).
    { intros k'. apply filter_ext_in. intros x Ix. apply shown_place. auto. }
    assert (Pc : place (upd (w_mgrs w) mi f) c
                 = match m_data m with None => m_container m | Some _ => None end).
    { unfold place. cbn [c c_hydrated c_mgr]. rewrite nth_upd, Nat.eqb_refl, Hm. cbn.
      rewrite Hf. cbn. now destruct (m_data m). }
    destruct I7 as [D1 D2].
    destruct (m_data m) as [l|] eqn:D.
    + subst d. split; [exact D1|]. cbn. intros k' n Hn.
      destruct (D2 _ _ Hn) as (n0 & A & B & C & F). exists n0. repeat split; auto.
      rewrite filter_app, Old, F. cbn [filter].
      assert (shown e page (upd (w_mgrs w) mi f) k' c = false) as ->; [|now rewrite app_nil_r].
      unfold shown. rewrite Pc. now rewrite andb_false_r.
    + unfold mount in Hd. destruct (e_wasm e) eqn:W; cbn [negb] in Hd.
      2:{ injection Hd as <-. split; [exact D1|]. cbn. intros k' n Hn.
          destruct (D2 _ _ Hn) as (n0 & A & B & C & F). exists n0. repeat split; auto.
          rewrite filter_app, Old, F. cbn [filter].
          assert (shown e page (upd (w_mgrs w) mi f) k' c = false) as ->; [|now rewrite app_nil_r].
          unfold shown. now rewrite W. }
      destruct (e_document e) eqn:Do; cbn [negb] in Hd; [|discriminate].
      destruct (m_container m) as [kc|] eqn:K; [|discriminate].
      destruct (nth_error (w_dom w) kc) as [nc|] eqn:Nc; [|discriminate].
      destruct (negb (m_append m) && _); [discriminate|].
      destruct (n_accepts nc) eqn:Acc; [|discriminate]. injection Hd as <-.
      split; [cbn; now rewrite upd_length|]. cbn. intros k' n Hn. rewrite nth_upd in Hn.
      rewrite filter_app, Old. cbn [filter].
      destruct (Nat.eqb_spec kc k') as [<-|Nk].
      * rewrite Nc in Hn. injection Hn as <-.
        destruct (D2 _ _ Nc) as (n0 & A & B & C & F). exists n0. cbn. repeat split; auto.
        rewrite filter_app, F, map_app. cbn [filter].
        rewrite (proj2 (own_in page id text) Hpg).
        assert (shown e page (upd (w_mgrs w) mi f) kc c = true) as ->; [|reflexivity].
        unfold shown. rewrite Pc, W, Nat.eqb_refl. reflexivity.
      * destruct (D2 _ _ Hn) as (n0 & A & B & C & F). exists n0. repeat split; auto.
        rewrite F. assert (shown e page (upd (w_mgrs w) mi f) k' c = false) as ->;
          [|now rewrite app_nil_r].
        unfold shown. rewrite Pc. destruct (Nat.eqb_spec kc k'); [congruence|].
        now rewrite andb_false_r.
  - (* the initial page *)
    intros x Ix. cbn.
    assert (G : gone e x (w_contents w ++ [c]) = gone e x (w_contents w)).
    { unfold gone. destruct (_ && plain_ident x); [|reflexivity].
      rewrite filter_app, app_length. cbn. lia. }
    rewrite G, <- (I8 x Ix). destruct (m_data m); [now rewrite Hd|].
    assert (Nx : id <> x) by (intros ->; contradiction).
    unfold mount in Hd. destruct (e_wasm e); cbn [negb] in Hd; [|now injection Hd as <-].
    destruct (e_document e); cbn [negb] in Hd; [|discriminate].
    destruct (m_container m) as [kc|]; [|discriminate].
    destruct (nth_error (w_dom w) kc) as [nc|] eqn:Nc; [|discriminate].
    destruct (negb (m_append m) && _); [discriminate|].
    destruct (n_accepts nc); [|discriminate]. injection Hd as <-.
    destruct (upd_split _ _ (set_children (n_children nc ++ [EStyle id text])) _ Nc)
      as (a & b & -> & _ & ->).
    unfold texts_of. rewrite !flat_map_app. f_equal. cbn [flat_map set_children n_in_document n_children].
    f_equal. destruct (n_in_document nc); [|reflexivity].
    rewrite texts_in_app. cbn. apply str_eqb_neq in Nx. rewrite Nx. now rewrite app_nil_r.
Qed.

Lemma inv_get_or_register w mi k m :
  Inv [] w -> nth_error (w_mgrs w) mi = Some m -> m_strong m >= 1 ->
  w_draws (fst (get_or_register e mi k w)) <= N ->
  Inv [] (fst (get_or_register e mi k w)).
Proof.
  intros I Hm Hs. unfold get_or_register. rewrite Hm.
  destruct (reg_get (m_reg m) k) as [cid|] eqn:G.
  - intros _. cbn [fst]. apply reg_get_in in G.
    destruct (registered_content _ _ _ _ _ _ I Hm G) as (c & Hc & P).
    now apply (inv_share _ _ _ c).
  - cbv zeta. destruct (e_debug e && _); [intros _; now apply inv_draw|].
    destruct (m_data m) as [l|] eqn:D; cbn [fst].
    + unfold admit_content. cbn. intros L. rewrite upd_upd. apply (inv_admit w mi m); auto.
      * rewrite D. unfold set_data, set_reg. cbn. reflexivity.
      * now rewrite D.
    + cbn [draw w_dom]. destruct (mount e m _ _ _) as [d|] eqn:M; cbn [fst].
      * unfold admit_content. cbn. intros L. apply (inv_admit w mi m); auto.
        -- rewrite D. unfold set_reg. now rewrite D.
        -- now rewrite D.
      * cbn. intros L. rewrite (unmount_fresh [] w) by auto. now apply inv_draw in I.
Qed.

(** ** Hydration *)

Lemma inv_load_one w mi m r w' :
  Inv [] w -> nth_error (w_mgrs w) mi = Some m -> m_strong m >= 1 -> w_draws w <= N ->
  In (r_id r) loaded -> load_one mi r w = Some w' ->
  Inv [] w' /\ w_draws w' = w_draws w
  /\ exists m', nth_error (w_mgrs w') mi = Some m' /\ m_strong m' >= 1.
Proof.
  intros I Hm Hs L Il. unfold load_one. rewrite Hm.
  destruct (reg_get (m_reg m) (r_key r)) as [cid|] eqn:G.
  - destruct (nth_error (w_contents w) cid) as [c|].
    + destruct (str_eqb _ _); [|discriminate]. intros [= <-]. eauto.
    + intros [= <-]. eauto.
  - cbv zeta. intros [= <-].
    set (c := mk_content (r_id r) (r_key r) _ mi true 1).
    set (f := fun m => set_reg (m_reg m ++ [(r_key r, List.length (w_contents w))]) m).
    split; [|split; [reflexivity|]].
    2:{ exists (f m). cbn. rewrite nth_upd_eq, Hm. split; [reflexivity|exact Hs]. }
    destruct I as [I1 I2 I3 I4 I5 I6 I7 I8].
    assert (Hnone : nth_error (w_contents w) (List.length (w_contents w)) = None)
      by (apply nth_error_None; lia).
    assert (Hpl : forall x, place (upd (w_mgrs w) mi f) x = place (w_mgrs w) x).
    { intros x. apply (place_upd _ _ m); auto. tauto. }
    split.
    + intros x. cbn. rewrite (cnt_nil x).
      pose proof (cnt_flat_upd (fun m => map snd (m_reg m)) (w_mgrs w) mi f m x Hm) as Q.
      cbv beta in Q. unfold f in Q at 2. cbn [m_reg set_reg] in Q. rewrite map_app, cnt_app in Q.
      cbn [map snd] in Q. rewrite cnt_cons, !cnt_nil in Q.
      specialize (I1 x). unfold reg_refs in *. rewrite cnt_nil in *. unfold strong_of in *.
      destruct (Nat.eqb_spec (List.length (w_contents w)) x) as [<-|Nx].
      * rewrite nth_app_new. rewrite Hnone in I1. cbn [c c_strong]. lia.
      * destruct (nth_error (w_contents w ++ [c]) x) as [y|] eqn:Y.
        -- apply nth_app_inv in Y as [Y|[Y _]]; [rewrite Y in I1; lia|congruence].
        -- assert (nth_error (w_contents w) x = None) as Z.
           { apply nth_error_None. apply nth_error_None in Y. rewrite app_length in Y. lia. }
           rewrite Z in I1. lia.
    + intros j. cbn. rewrite <- I2. unfold mstrong_of. rewrite nth_upd.
      destruct (Nat.eqb_spec mi j) as [<-|]; [|reflexivity]. now rewrite Hm.
    + intros j m' Hm'. cbn in Hm'. rewrite nth_upd in Hm'.
      destruct (Nat.eqb_spec mi j) as [<-|].
      * rewrite Hm in Hm'. cbn in Hm'. injection Hm' as <-. cbn.
        destruct (I3 _ _ Hm) as (R1 & R2 & R3). repeat split.
        -- rewrite map_app. cbn. apply reg_get_none in G.
           apply NoDup_Add with (a := r_key r) (l := map fst (m_reg m)).
           ++ rewrite <- (app_nil_r (map fst (m_reg m))) at 1. apply Add_app.
           ++ split; assumption.
        -- lia.
        -- intros k' y Iy. apply in_app_iff in Iy as [Iy|[[= <- <-]|[]]].
           ++ destruct (R3 _ _ Iy) as (z & Z & Q). exists z. split; [|exact Q]. now apply nth_app_old.
           ++ exists c. split; [apply nth_app_new|]. split; reflexivity.
      * destruct (I3 _ _ Hm') as (R1 & R2 & R3). repeat split; auto.
        intros k' y Iy. destruct (R3 _ _ Iy) as (z & Z & Q). exists z. split; [|exact Q].
        now apply nth_app_old.
    + intros x y Hy. cbn in Hy |- *. rewrite upd_length.
      apply nth_app_inv in Hy as [Hy|[_ ->]]; [apply (I4 _ _ Hy)|].
      cbn. split; [now apply nth_lt in Hm | reflexivity].
    + destruct I5 as [J1 J2]. split.
      * intros x y Hy. cbn in Hy |- *. apply nth_app_inv in Hy as [Hy|[_ ->]].
        -- apply (J1 _ _ Hy).
        -- exact Il.
      * intros i j x y Hx Hy Hij Hh. cbn in Hx, Hy.
        apply nth_app_inv in Hx as [Hx|[-> ->]]; [|discriminate].
        apply nth_app_inv in Hy as [Hy|[-> ->]]; [now apply (J2 i j)|].
        specialize (J1 _ _ Hx). rewrite Hh in J1. destruct J1 as (n & Hn & M). cbn.
        unfold made_id in M. rewrite M. apply not_eq_sym, (not_drawn_new e N); [|lia].
        now apply loaded_fresh.
    + intros j m' l Hm' Hl. cbn in Hm' |- *. rewrite nth_upd in Hm'.
      rewrite filter_app. cbn [filter made_by c c_hydrated negb andb]. rewrite app_nil_r.
      destruct (Nat.eqb_spec mi j) as [<-|Nj].
      * rewrite Hm in Hm'. cbn in Hm'. injection Hm' as <-. apply (I6 _ _ _ Hm Hl).
      * apply (I6 _ _ _ Hm' Hl).
    + destruct I7 as [D1 D2]. split; [exact D1|]. cbn. intros k n Hn.
      destruct (D2 _ _ Hn) as (n0 & A & B & C & F). exists n0. repeat split; auto.
      rewrite filter_app, F. cbn [filter].
      assert (shown e page (upd (w_mgrs w) mi f) k c = false) as ->.
      { unfold shown, place. cbn [c c_hydrated]. now rewrite andb_false_r. }
      rewrite app_nil_r. f_equal. apply filter_ext. intros x. symmetry. now apply shown_place.
    + intros x Ix. cbn. rewrite (I8 x Ix). f_equal. unfold gone.
      destruct (_ && plain_ident x); [|reflexivity].
      rewrite filter_app, app_length. cbn [filter c c_strong Nat.eqb]. rewrite andb_false_r.
      cbn. lia.
Qed.

Lemma inv_load_data l w mi m :
  Inv [] w -> nth_error (w_mgrs w) mi = Some m -> m_strong m >= 1 -> w_draws w <= N ->
  (forall r, In r l -> In (r_id r) loaded) ->
  Inv [] (fst (load_data mi l w)) /\ w_draws (fst (load_data mi l w)) = w_draws w.
Proof.
  revert w m. induction l as [|r l IH]; intros w m I Hm Hs L Hl; [now cbn|].
  cbn [load_data]. destruct (load_one mi r w) as [w1|] eqn:E; [|now cbn].
  destruct (inv_load_one _ _ _ _ _ I Hm Hs L (Hl r (or_introl eq_refl)) E)
    as (I1 & D1 & m1 & Hm1 & Hs1).
  rewrite <- D1. apply (IH w1 m1); auto; [lia|]. intros; apply Hl. now right.
Qed.

(** ** Other code editing the page *)

Lemma inv_foreign extra w n g :
  (forall l, filter (own page) (g l) = filter (own page) l) ->
  (forall id l, texts_in id (g l) = texts_in id l) ->
  Inv extra w ->
  Inv extra (with_dom w (upd (w_dom w) n (fun c => set_children (g (n_children c)) c))).
Proof.
  intros G1 G2 [I1 I2 I3 I4 I5 I6 I7 I8]. split; auto.
  - destruct I7 as [D1 D2]. split; [cbn; now rewrite upd_length|]. cbn. intros k c Hc.
    rewrite nth_upd in Hc. destruct (Nat.eqb_spec n k) as [<-|]; [|apply (D2 _ _ Hc)].
    destruct (nth_error (w_dom w) n) as [c0|] eqn:E; [|discriminate]. injection Hc as <-.
    destruct (D2 _ _ E) as (n0 & A & B & C & F). exists n0. cbn. rewrite G1. auto.
  - intros id Iid. cbn. rewrite <- (I8 id Iid).
    destruct (nth_error (w_dom w) n) as [c0|] eqn:E; [|now rewrite upd_none].
    destruct (upd_split _ _ (fun c => set_children (g (n_children c)) c) _ E) as (a & b & -> & _ & ->).
    unfold texts_of. rewrite !flat_map_app. cbn [flat_map set_children n_in_document n_children].
    now rewrite G2.
Qed.

Lemma filter_insert_other (f : child -> bool) l i :
  f EOther = false -> filter f (insert_at l i EOther) = filter f l.
Proof.
  intros H. revert i. induction l as [|x l IH]; intros [|i]; cbn; rewrite ?H; auto.
  now rewrite IH.
Qed.

Lemma filter_remove_other (f : child -> bool) l i :
  f EOther = false -> filter f (remove_other l i) = filter f l.
Proof.
  intros H. revert i. induction l as [|[a b|] l IH]; intros [|i]; cbn; rewrite ?H; auto.
  now rewrite IH.
Qed.

Lemma texts_insert_other id l i : texts_in id (insert_at l i EOther) = texts_in id l.
Proof.
  revert i. induction l as [|[a b|] l IH]; intros [|i]; cbn; auto;
    unfold texts_in in IH; now rewrite IH.
Qed.

Lemma texts_remove_other_node id l i : texts_in id (remove_other l i) = texts_in id l.
Proof.
  revert i. induction l as [|[a b|] l IH]; intros [|i]; cbn; auto;
    unfold texts_in in IH; now rewrite IH.
Qed.

(** ** All operations *)

Lemma get_or_register_draws mi k w :
  w_draws w <= w_draws (fst (get_or_register e mi k w)).
Proof.
  unfold get_or_register. destruct (nth_error (w_mgrs w) mi) as [m|]; [|cbn; lia].
  destruct (reg_get _ _); [cbn; lia|]. cbv zeta. destruct (e_debug e && _); [cbn; lia|].
  destruct (m_data m); [cbn; lia|]. destruct (mount _ _ _ _ _); cbn; lia.
Qed.

Lemma load_data_draws mi l w : w_draws (fst (load_data mi l w)) = w_draws w.
Proof.
  revert w. induction l as [|r l IH]; intros w; [reflexivity|]. cbn [load_data].
  destruct (load_one mi r w) as [w1|] eqn:E; [|reflexivity]. rewrite IH.
  unfold load_one in E. destruct (nth_error (w_mgrs w) mi) as [m|]; [|now injection E as <-].
  destruct (reg_get _ _) as [cid|].
  - destruct (nth_error _ cid); [destruct (str_eqb _ _); [|discriminate]|]; now injection E as <-.
  - now injection E as <-.
Qed.

Lemma step_draws w o : w_draws w <= w_draws (fst (step e w o)).
Proof.
  destruct o; cbn [step].
  - unfold build. destruct (e_wasm e); [|cbn; lia]. destruct cont; [cbn; lia|].
    destruct (e_document e); [|cbn; lia]. destruct (e_head e); cbn; lia.
  - unfold clone_manager. destruct (handle_of _ _); cbn; lia.
  - unfold drop_manager. destruct (handle_of _ _) as [mi|]; [|cbn; lia].
    destruct (nth_error _ _); [|cbn; lia]. cbv zeta.
    destruct (Nat.eqb _ 0); cbn [fst]; [|cbn; lia].
    match goal with |- _ <= w_draws (release_all e ?l ?w) =>
      destruct (release_all_frame e l w) as (-> & _) end. cbn. lia.
  - destruct (handle_of _ _); [apply get_or_register_draws | cbn; lia].
  - unfold clone_style. destruct (handle_of _ _); cbn; lia.
  - unfold drop_style. destruct (handle_of _ _) as [cid|]; [|cbn; lia]. cbn [fst].
    match goal with |- _ <= w_draws (release e ?l ?w) =>
      destruct (release_frame e l w) as (-> & _) end. cbn. lia.
  - unfold unregister_style. destruct (handle_of _ _) as [cid|]; [|cbn; lia].
    destruct (nth_error (w_contents w) cid) as [c|]; [|cbn; lia].
    destruct (nth_error (w_mgrs w) _) as [m|]; [|cbn; lia].
    destruct (Nat.eqb _ 0); [cbn; lia|].
    destruct (reg_remove _ _) as [r [x|]]; cbn [fst]; [|cbn; lia].
    match goal with |- _ <= w_draws (release e ?l ?w) =>
      destruct (release_frame e l w) as (-> & _) end. cbn. lia.
  - destruct (handle_of _ _); [rewrite load_data_draws|]; cbn; lia.
  - destruct (handle_of _ _); cbn; lia.
  - cbn. lia.
  - cbn. lia.
Qed.

Lemma step_inv w o :
  Inv [] w -> w_draws (fst (step e w o)) <= N ->
  (forall id, In id (loaded_ids [o]) -> In id loaded) ->
  Inv [] (fst (step e w o)).
Proof.
  intros I L Hl. pose proof (step_draws w o) as L0.
  assert (L1 : w_draws w <= N) by lia.
  destruct o; cbn [step] in *.
  - now apply inv_build.
  - now apply inv_clone_manager.
  - now apply inv_drop_manager.
  - destruct (handle_of (w_mhandles w) h) as [mi|] eqn:H; [|exact I].
    destruct (handle_manager _ _ _ _ I H) as (m & Hm & Hs). now apply (inv_get_or_register w mi k m).
  - now apply inv_clone_style.
  - now apply inv_drop_style.
  - now apply inv_unregister.
  - destruct (handle_of (w_mhandles w) h) as [mi|] eqn:H; [|exact I].
    destruct (handle_manager _ _ _ _ I H) as (m & Hm & Hs).
    apply (inv_load_data d w mi m); auto. intros r Ir. apply Hl. cbn.
    rewrite app_nil_r. now apply in_map.
  - destruct (handle_of (w_mhandles w) h); exact I.
  - apply (inv_foreign [] w n (fun l => insert_at l pos EOther)); auto; intros.
    + now apply filter_insert_other.
    + apply texts_insert_other.
  - apply (inv_foreign [] w n (fun l => remove_other l pos)); auto; intros.
    + now apply filter_remove_other.
    + apply texts_remove_other_node.
Qed.

Lemma run_draws l w : w_draws w <= w_draws (fst (run e w l)).
Proof.
  revert w. induction l as [|o l IH]; intros w; [cbn; lia|]. cbn [run].
  pose proof (step_draws w o). destruct (step e w o) as [w1 r]. cbn [fst] in *.
  specialize (IH w1). destruct (run e w1 l) as [w2 rs]. cbn [fst] in *. lia.
Qed.

Lemma run_inv l w :
  Inv [] w -> w_draws (fst (run e w l)) <= N ->
  (forall id, In id (loaded_ids l) -> In id loaded) ->
  Inv [] (fst (run e w l)).
Proof.
  revert w. induction l as [|o l IH]; intros w I L Hl; [exact I|]. cbn [run] in *.
  pose proof (step_inv w o I) as S.
  destruct (step e w o) as [w1 r] eqn:E. cbn [fst] in *.
  pose proof (run_draws l w1) as D.
  specialize (IH w1). destruct (run e w1 l) as [w2 rs]. cbn [fst] in *.
  apply IH; auto.
  - apply S; [lia|]. intros id Iid. apply Hl. cbn in *. rewrite app_nil_r in Iid.
    apply in_app_iff. auto.
  - intros id Iid. apply Hl. cbn. apply in_app_iff. auto.
Qed.
End Steps.

Lemma start_inv e page loaded : inv e page loaded [] (start page).
Proof.
  split.
  - intros [|x]; reflexivity.
  - intros [|x]; reflexivity.
  - intros [|mi] m H; discriminate H.
  - intros [|mi] m H; discriminate H.
  - split; [intros [|i] c H; discriminate H | intros [|i] j c d H; discriminate H].
  - intros [|mi] m l H; discriminate H.
  - split; [reflexivity|]. cbn. intros k n Hn. exists n. repeat split; auto.
    destruct (filter (own page) (n_children n)) as [|x l] eqn:F; [reflexivity|exfalso].
    assert (I : In x (filter (own page) (n_children n))) by (rewrite F; now left).
    apply filter_In in I as [I O]. destruct x as [i t|]; [|discriminate].
    apply own_in in O. apply O. apply in_flat_map. exists n.
    split; [eapply nth_error_In; eauto|]. apply in_flat_map. exists (EStyle i t).
    split; [exact I | now left].
  - intros id _. cbn. unfold gone. now destruct (_ && plain_ident id).
Qed.

Lemma reaches_inv e page l w :
  reaches e page l w -> no_clash e page l (w_draws w) ->
  inv e page (loaded_ids l) [] w.
Proof.
  intros [rs R] (A & B & C).
  pose proof (run_inv e page (loaded_ids l) (w_draws w) A B C l (start page)
                (start_inv e page _)) as H.
  rewrite R in H. apply H; auto.
Qed.
