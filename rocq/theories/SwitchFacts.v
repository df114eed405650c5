(** * SwitchFacts: what the steps of a provider change (C64). *)

From Coq Require Import String Ascii List NArith Bool Arith Lia Permutation.
From Verif Require Import Str StrFacts Ast Render CssParser Ids IdFacts Manager SpecManager
  ManagerFacts ManagerInv ManagerSteps ManagerCore ManagerProps Hydrate Hooks SpecHooks
  HookFacts HookOnly HookTame PropsManager PropsHydrate PropsHooks Provider LeakFacts.
Import ListNotations.
Local Open Scope list_scope.
Local Opaque parse to_style_str.

Lemma reaches_more e page l w o : reaches e page l w -> reaches e page (l ++ [o]) (fst (step e w o)).
Proof. apply HookFacts.reaches_step. Qed.

(** What does not change: the styles of a manager, as it knows them. *)
Definition same_known (mj : nat) (w w' : world) : Prop :=
  forall k id, known_as w' mj k id <-> known_as w mj k id.

Lemma same_known_trans mj w1 w2 w3 : same_known mj w1 w2 -> same_known mj w2 w3 -> same_known mj w1 w3.
Proof. intros A B k id. rewrite (B k id). apply A. Qed.
Lemma same_known_refl mj w : same_known mj w w.
Proof. intros k id. reflexivity. Qed.
Lemma same_known_fits mj w w' d : same_known mj w w' -> (data_fits w' mj d <-> data_fits w mj d).
Proof.
  intros S. unfold data_fits. split; intros [A B]; (split; [|exact B]); intros r id I K; apply (A r id I); now apply S.
Qed.

Lemma sw_clone e w h mi : handle_of (w_mhandles w) h = Some mi ->
  let w' := fst (step e w (OCloneManager h)) in
  step e w (OCloneManager h) = (w', RHandle (List.length (w_mhandles w)))
  /\ w_contents w' = w_contents w /\ w_dom w' = w_dom w /\ w_handles w' = w_handles w /\ w_draws w' = w_draws w
  /\ w_mhandles w' = w_mhandles w ++ [Some mi]
  /\ (forall mj k cid, registered w' mj k cid <-> registered w mj k cid)
  /\ (forall mj, same_known mj w w').
Proof.
  intros H w'. unfold w'. cbn [step]. unfold clone_manager. rewrite H. cbn [fst].
  assert (Rg : forall mj k cid, registered (with_mhandles (with_mgrs w (upd (w_mgrs w) mi (fun m => set_mstrong (S (m_strong m)) m)))
         (w_mhandles w ++ [Some mi])) mj k cid <-> registered w mj k cid).
  { intros mj k cid. unfold registered. cbn [w_mgrs with_mhandles with_mgrs]. rewrite nth_upd.
    destruct (Nat.eqb_spec mi mj) as [->|]; [|reflexivity].
    destruct (nth_error (w_mgrs w) mj) as [m|]; cbn; [|split; intros (m' & E & _); discriminate].
    split; intros (m' & E & I); injection E as <-; eexists; (split; [reflexivity|exact I]). }
  repeat (split; [reflexivity|]). split; [exact Rg|].
  intros mj k id. unfold known_as. split; intros (cid & c & R & X); exists cid, c; (split; [now apply Rg|exact X]).
Qed.

Lemma untouched_known e page l w o mj m : reaches e page l w -> nth_error (w_mgrs w) mj = Some m -> op_manager w o <> Some mj ->
  same_known mj w (fst (step e w o)).
Proof.
  intros R Hm N k id. destruct (other_managers_untouched e page l w o mj m R Hm N) as [U1 U2].
  pose proof (o_reg _ _ _ _ (reaches_core _ _ _ _ R) _ _ Hm) as (_ & _ & Rk).
  assert (Ct : forall k' cid, registered w mj k' cid -> exists c, nth_error (w_contents w) cid = Some c /\ c_mgr c = mj).
  { intros k' cid (m' & Hm' & I). rewrite Hm in Hm'. injection Hm' as <-. destruct (Rk _ _ I) as (c & Hc & _ & Mc). eauto. }
  unfold known_as. split; intros (cid & c & Rg & Hc & Ei); exists cid.
  - apply U1 in Rg. destruct (Ct _ _ Rg) as (c0 & Hc0 & Mc). destruct (U2 _ _ Hc0 Mc) as [Hc1 _].
    exists c0. split; [exact Rg|]. split; [exact Hc0|]. rewrite Hc in Hc1. injection Hc1 as ->. exact Ei.
  - destruct (Ct _ _ Rg) as (c0 & Hc0 & Mc). destruct (U2 _ _ Hc0 Mc) as [Hc1 _]. rewrite Hc in Hc0. injection Hc0 as <-.
    exists c. split; [now apply U1|]. split; [exact Hc1|exact Ei].
Qed.

Lemma sw_drop e page l w x mi : reaches e page l w -> handle_of (w_mhandles w) x = Some mi ->
  let w' := fst (step e w (ODropManager x)) in
  w_mhandles w' = upd (w_mhandles w) x (fun _ => None) /\ w_handles w' = w_handles w /\ w_draws w' = w_draws w
  /\ (forall mj m, nth_error (w_mgrs w) mj = Some m -> mj <> mi -> same_known mj w w')
  /\ (forall z, handle_of (w_mhandles w) z = Some mi -> z <> x ->
        w_dom w' = w_dom w /\ forall mj k cid, registered w' mj k cid <-> registered w mj k cid).
Proof.
  intros R H w'. pose proof (reaches_core _ _ _ _ R) as C. destruct (core_manager _ _ _ _ _ _ C H) as (m & Hm & Hs).
  assert (F : w_mhandles w' = upd (w_mhandles w) x (fun _ => None) /\ w_handles w' = w_handles w /\ w_draws w' = w_draws w).
  { unfold w'. cbn [step]. unfold drop_manager. rewrite H, Hm. cbv zeta. destruct (Nat.eqb _ _); [|auto]. cbn [fst].
    match goal with |- context [release_all e ?a ?b] => destruct (release_all_frame e a b) as (F1 & F2 & F3 & F4 & _) end.
    rewrite F1, F3, F4. auto. }
  destruct F as (F1 & F2 & F3). split; [exact F1|]. split; [exact F2|]. split; [exact F3|]. split.
  - intros mj mm Hmj N. unfold w'. eapply untouched_known; [exact R|exact Hmj|]. cbn [op_manager]. rewrite H. congruence.
  - intros z Hz N. assert (C' : core e (loaded_ids (l ++ [ODropManager x])) [] w').
    { apply reaches_core with (page := page). now apply reaches_more. }
    assert (Hz' : handle_of (w_mhandles w') z = Some mi).
    { rewrite F1. unfold handle_of in Hz |- *. rewrite nth_upd_ne by auto. exact Hz. }
    destruct (core_manager _ _ _ _ _ _ C' Hz') as (m' & Hm' & Hs'). revert Hm'. unfold w'. cbn [step]. unfold drop_manager. rewrite H, Hm. cbv zeta.
    destruct (Nat.eqb (Nat.pred (m_strong m)) 0); cbn [fst].
    + match goal with |- context [release_all e ?a ?b] => destruct (release_all_frame e a b) as (_ & G & _) end.
      rewrite G. cbn [w_mgrs with_mgrs with_mhandles]. rewrite nth_upd_eq, Hm. cbn. intros E. injection E as <-. cbn in Hs'. lia.
    + intros _. split; [reflexivity|]. intros mj k cid. unfold registered. cbn [w_mgrs with_mhandles with_mgrs]. rewrite nth_upd.
      destruct (Nat.eqb_spec mi mj) as [->|]; [|reflexivity]. rewrite Hm. cbn.
      split; intros (m2 & E & I); injection E as <-; eexists; (split; [reflexivity|exact I]).
Qed.

Lemma sw_load e page l w h mi d : reaches e page l w -> handle_of (w_mhandles w) h = Some mi ->
  let w' := fst (step e w (OLoad h d)) in
  w_mhandles w' = w_mhandles w /\ w_handles w' = w_handles w /\ w_dom w' = w_dom w /\ w_draws w' = w_draws w
  /\ (forall mj m, nth_error (w_mgrs w) mj = Some m -> mj <> mi ->
        forall k cid, registered w' mj k cid <-> registered w mj k cid).
Proof.
  intros R H w'.
  assert (E : w' = fst (load_data mi d w)).
  { unfold w'. cbn [step]. now rewrite H. }
  destruct (load_data_handles mi d w) as [A B]. rewrite E. repeat (split; [assumption|]).
  split; [apply load_data_dom|]. split; [apply load_data_draws|].
  intros mj m Hm N k cid. rewrite <- E. unfold w'.
  destruct (other_managers_untouched e page l w (OLoad h d) mj m R Hm) as [U _]; [cbn [op_manager]; rewrite H; congruence|]. apply U.
Qed.

(** Elements with the id of a dead hydrated style are not in the document. *)
Lemma dead_element e page l w cid c t : reaches e page l w -> no_clash e page l (w_draws w) ->
  e_wasm e = true -> e_document e = true -> nth_error (w_contents w) cid = Some c -> c_hydrated c = true ->
  plain_ident (c_id c) = true -> In (c_id c) (page_ids page) -> texts_of (c_id c) page = [t] -> ~ alive w cid ->
  texts_of (c_id c) (w_dom w) = [].
Proof.
  intros R NC W D Hc Hy P Ip Tx Na. apply (reaches_inv _ _ _ _ R) in NC as I.
  pose proof (i_page _ _ _ _ _ I _ Ip) as T. unfold gone in T. rewrite W, D, P in T. cbn [andb] in T. rewrite T, Tx.
  assert (S0 : c_strong c = 0).
  { destruct (c_strong c) eqn:S; [reflexivity|]. exfalso. apply Na, (alive_strong w cid (i_counted _ _ _ _ _ I)). unfold strong_of.
    rewrite Hc. lia. }
  match goal with |- skipn (List.length (filter ?f ?l)) _ = _ => assert (J : In c (filter f l)) end.
  { apply filter_In. split; [eapply nth_error_In; exact Hc|]. now rewrite Hy, str_eqb_refl, S0. }
  match goal with |- skipn (List.length ?l) _ = _ => destruct l as [|q r]; [destruct J|] end. cbn. now rewrite skipn_nil.
Qed.

Lemma handle_app_new l x : handle_of (l ++ [Some x]) (List.length l) = Some x.
Proof. unfold handle_of. now rewrite nth_app_new. Qed.
Lemma handle_upd_other l x z v : z <> x -> handle_of l z = Some v -> handle_of (upd l x (fun _ => None)) z = Some v.
Proof. intros N H. unfold handle_of in *. rewrite nth_upd_ne by auto. exact H. Qed.
Lemma handle_upd_inv l x z v : handle_of (upd l x (fun _ => None)) z = Some v -> z <> x /\ handle_of l z = Some v.
Proof.
  intros H. destruct (Nat.eq_dec z x) as [->|N]; [now rewrite handle_dropped in H|]. split; [exact N|].
  unfold handle_of in *. now rewrite nth_upd_ne in H by auto.
Qed.
Lemma handle_app_inv l x z v : handle_of (l ++ [Some x]) z = Some v -> handle_of l z = Some v \/ v = x.
Proof.
  intros H. unfold handle_of in *. destruct (nth_error (l ++ [Some x]) z) as [[q|]|] eqn:E; try discriminate. injection H as <-.
  apply nth_app_inv in E. destruct E as [E|[_ E]]; [left; now rewrite E|right; congruence].
Qed.

(** The worlds on the way when a provider takes another manager. *)
Record switched (e : env) (page : dom) (lr : list op) (d : list record) (ctx dep mi mi2 : nat) (w w6 : world) : Prop := mk_switched
  { sw_reach : exists l6, reaches e page l6 w6 /\ forall id, In id (loaded_ids l6) -> In id (loaded_ids lr) \/ In id (map r_id d);
    sw_known : forall k id, known_as w6 mi2 k id <-> known_as w mi2 k id \/ exists r, In r d /\ r_key r = k /\ r_id r = id;
    sw_held : w_handles w6 = w_handles w;
    sw_draws : w_draws w6 = w_draws w;
    sw_owners : forall z v, handle_of (w_mhandles w6) z = Some v -> v = mi2 \/ (z <> ctx /\ z <> dep /\ handle_of (w_mhandles w) z = Some v);
    sw_kept : forall z, z <> ctx -> z <> dep -> handle_of (w_mhandles w) z = Some mi ->
      w_dom w6 = w_dom w /\ forall k cid, registered w6 mi k cid <-> registered w mi k cid;
    sw_steps : stepsT (fun _ _ => False) e w w6 }.

Lemma loaded_snoc l o : loaded_ids (l ++ [o]) = loaded_ids l ++ loaded_ids [o].
Proof. unfold loaded_ids. apply flat_map_app. Qed.

Lemma other_manager_spec y e page lr a p h2 d mi mi2 :
  reaches e page lr (a_world a) -> v_data p = Some d ->
  handle_of (w_mhandles (a_world a)) (v_context p) = Some mi ->
  handle_of (w_mhandles (a_world a)) (v_dep p) = Some mi -> v_context p <> v_dep p ->
  handle_of (w_mhandles (a_world a)) h2 = Some mi2 -> mi2 <> mi ->
  (provide_again y e p h2 a = None <-> ~ data_fits (a_world a) mi2 d)
  /\ forall a3 p2, provide_again y e p h2 a = Some (a3, p2) ->
       switched e page lr d (v_context p) (v_dep p) mi mi2 (a_world a) (a_world a3)
       /\ handle_of (w_mhandles (a_world a3)) (v_context p2) = Some mi2
       /\ handle_of (w_mhandles (a_world a3)) (v_dep p2) = Some mi2 /\ v_data p2 = Some d.
Proof.
  intros R Vd Hc Hd Ncd Hh Nm. set (ctx := v_context p) in *. set (dep := v_dep p) in *.
  pose proof (reaches_core _ _ _ _ R) as C0.
  destruct (core_manager _ _ _ _ _ _ C0 Hh) as (m2 & Hm2 & _). destruct (core_manager _ _ _ _ _ _ C0 Hc) as (m1 & Hm1 & _).
  set (w := a_world a) in *.
  destruct (sw_clone e w h2 mi2 Hh) as (E1 & A1 & A2 & A3 & A4 & A5 & A6 & A7).
  pose proof (reaches_more e page lr w (OCloneManager h2) R) as R1. set (w1 := fst (step e w (OCloneManager h2))) in *.
  assert (Hh1 : handle_of (w_mhandles w1) h2 = Some mi2) by (rewrite A5; now apply HookFacts.handle_app).
  destruct (sw_clone e w1 h2 mi2 Hh1) as (E2 & B1 & B2 & B3 & B4 & B5 & B6 & B7).
  pose proof (reaches_more e page _ w1 (OCloneManager h2) R1) as R2. set (w2 := fst (step e w1 (OCloneManager h2))) in *.
  assert (K : forall z v, handle_of (w_mhandles w) z = Some v -> handle_of (w_mhandles w2) z = Some v)
    by (intros z v Hz; rewrite B5, A5; now apply HookFacts.handle_app, HookFacts.handle_app).
  assert (Lc : ctx < List.length (w_mhandles w)) by (eapply handle_lt; exact Hc).
  assert (Ld : dep < List.length (w_mhandles w)) by (eapply handle_lt; exact Hd).
  set (c := List.length (w_mhandles w)) in *. assert (Ec1 : List.length (w_mhandles w1) = S c) by (rewrite A5, app_length; cbn; lia).
  assert (N1 : handle_of (w_mhandles w2) c = Some mi2) by (rewrite B5; apply HookFacts.handle_app; rewrite A5; apply handle_app_new).
  assert (N2 : handle_of (w_mhandles w2) (S c) = Some mi2) by (rewrite B5, <- Ec1; apply handle_app_new).
  assert (Inv2 : forall z v, handle_of (w_mhandles w2) z = Some v -> v = mi2 \/ handle_of (w_mhandles w) z = Some v).
  { intros z v Hz. rewrite B5, A5 in Hz. apply handle_app_inv in Hz. destruct Hz as [Hz|Hz]; [|now left]. apply handle_app_inv in Hz. tauto. }
  assert (Live : forall w0 l0 x, reaches e page l0 w0 -> forall v, handle_of (w_mhandles w0) x = Some v -> exists m, nth_error (w_mgrs w0) v = Some m).
  { intros w0 l0 x R0 v Hv. destruct (core_manager _ _ _ _ _ _ (reaches_core _ _ _ _ R0) Hv) as (m & Hm & _). eauto. }
  assert (Same : same_manager w1 dep h2 = false).
  { unfold same_manager. assert (X : handle_of (w_mhandles w1) dep = Some mi) by (rewrite A5; now apply HookFacts.handle_app).
    rewrite X, Hh1. apply Nat.eqb_neq. auto. }
  assert (Tm : forall w0 o, (forall h, o <> OUnregister h) -> tame (fun _ _ => False) w0 o) by (intros w0 o N h E; now apply N in E).
  unfold provide_again, clone_handle. fold w ctx dep. rewrite E1, Same, E2, Ec1, Vd. cbn [load_state].
  destruct (y_drop_first y).
  - (* dropped first *)
    destruct (sw_drop e page _ w2 dep mi R2 (K _ _ Hd)) as (D1 & D2 & D3 & D4 & D5).
    pose proof (reaches_more e page _ w2 (ODropManager dep) R2) as R3. set (w3 := fst (step e w2 (ODropManager dep))) in *.
    assert (M2 : handle_of (w_mhandles w3) (S c) = Some mi2) by (rewrite D1; apply handle_upd_other; [lia|exact N2]).
    assert (Kn3 : same_known mi2 w w3).
    { destruct (Live _ _ _ R2 _ N2) as (q & Hq). eapply same_known_trans; [apply (A7 mi2)|]. eapply same_known_trans; [apply (B7 mi2)|]. apply (D4 mi2 q Hq Nm). }
    destruct (style_data_loads_iff e page _ w3 (S c) mi2 d R3 M2) as (w4 & res & Es & Two & Fits & Kn).
    destruct (sw_load e page _ w3 (S c) mi2 d R3 M2) as (F1 & F2 & F3 & F4 & F5). pose proof (reaches_more e page _ w3 (OLoad (S c) d) R3) as R4.
    rewrite Es in F1, F2, F3, F4, F5, R4 |- *. cbn [fst] in F1, F2, F3, F4, F5, R4. rewrite (same_known_fits _ _ _ d Kn3) in Fits.
    split.
    + rewrite <- Fits. destruct Two as [-> | ->]; [|split; [intros _; discriminate|reflexivity]].
      split; [discriminate|intros N; now elim N].
    + intros a3 p2 H. destruct Two as [-> | ->]; [|discriminate].
      assert (Ea : a3 = with_world a (fst (step e w4 (ODropManager ctx)))) by (injection H as <- _; reflexivity).
      assert (Ep : p2 = mk_provider c (S c) (Some d)) by (injection H as _ <-; reflexivity). clear H. subst a3 p2.
      cbn [a_world with_world v_context v_dep v_data].
      assert (Hc4 : handle_of (w_mhandles w4) ctx = Some mi) by (rewrite F1, D1; apply handle_upd_other; [exact Ncd|now apply K]).
      destruct (sw_drop e page _ w4 ctx mi R4 Hc4) as (G1 & G2 & G3 & G4 & G5).
      pose proof (reaches_more e page _ w4 (ODropManager ctx) R4) as R6. set (w6 := fst (step e w4 (ODropManager ctx))) in *.
      assert (M1 : forall z v, z <> ctx -> z <> dep -> handle_of (w_mhandles w2) z = Some v -> handle_of (w_mhandles w6) z = Some v).
      { intros z v X1 X2 Hz. rewrite G1, F1, D1. apply handle_upd_other; [exact X1|]. apply handle_upd_other; [exact X2|exact Hz]. }
      split; [|split; [apply M1; [lia|lia|exact N1]|split; [apply M1; [lia|lia|exact N2]|reflexivity]]].
      split.
      * eexists. split; [exact R6|]. intros id. rewrite !loaded_snoc, !in_app_iff. cbn. rewrite app_nil_r. intuition contradiction.
      * intros k id. assert (M4 : handle_of (w_mhandles w4) (S c) = Some mi2) by now rewrite F1.
        destruct (Live _ _ _ R4 _ M4) as (q & Hq). rewrite (G4 mi2 q Hq Nm k id). destruct (Kn eq_refl) as [Kn' _].
        rewrite (Kn' k id), (Kn3 k id). reflexivity.
      * now rewrite G2, F2, D2, B3, A3.
      * now rewrite G3, F4, D3, B4, A4.
      * intros z v Hz. rewrite G1, F1, D1 in Hz. apply handle_upd_inv in Hz. destruct Hz as [Z1 Hz]. apply handle_upd_inv in Hz. destruct Hz as [Z2 Hz].
        destruct (Inv2 _ _ Hz) as [V|V]; [now left|right]. auto.
      * intros z Z1 Z2 Hz. destruct (D5 z (K _ _ Hz) Z2) as [Y1 Y2].
        assert (Hz4 : handle_of (w_mhandles w4) z = Some mi) by (rewrite F1, D1; apply handle_upd_other; [exact Z2|now apply K]).
        destruct (G5 z Hz4 Z1) as [Y3 Y4]. split; [now rewrite Y3, F3, Y1, B2, A2|].
        intros k cid. rewrite (Y4 mi k cid). assert (Hz3 : handle_of (w_mhandles w3) z = Some mi) by now rewrite <- F1.
        destruct (Live _ _ _ R3 _ Hz3) as (q & Hq). rewrite (F5 mi q Hq (not_eq_sym Nm)), (Y2 mi k cid), (B6 mi k cid). apply A6.
      * eapply steps_trans; [exact (steps_one (fun _ _ => False) e w (OCloneManager h2) (Tm w (OCloneManager h2) ltac:(discriminate)))|]. eapply steps_trans; [exact (steps_one (fun _ _ => False) e w1 (OCloneManager h2) (Tm w1 (OCloneManager h2) ltac:(discriminate)))|].
        eapply steps_trans; [exact (steps_one (fun _ _ => False) e w2 (ODropManager dep) (Tm w2 (ODropManager dep) ltac:(discriminate)))|]. 
        eapply steps_trans; [eapply steps_res; [apply (Tm _ (OLoad (S c) d)); discriminate|exact Es]|]. apply steps_one, Tm. discriminate.
  - (* dropped after *)
    assert (Kn2 : same_known mi2 w w2) by (eapply same_known_trans; [apply (A7 mi2)|apply (B7 mi2)]).
    destruct (style_data_loads_iff e page _ w2 (S c) mi2 d R2 N2) as (w4 & res & Es & Two & Fits & Kn).
    destruct (sw_load e page _ w2 (S c) mi2 d R2 N2) as (F1 & F2 & F3 & F4 & F5). pose proof (reaches_more e page _ w2 (OLoad (S c) d) R2) as R4.
    rewrite Es in F1, F2, F3, F4, F5, R4 |- *. cbn [fst] in F1, F2, F3, F4, F5, R4. rewrite (same_known_fits _ _ _ d Kn2) in Fits.
    split.
    + rewrite <- Fits. destruct Two as [-> | ->]; [|split; [intros _; discriminate|reflexivity]].
      split; [discriminate|intros N; now elim N].
    + intros a3 p2 H. destruct Two as [-> | ->]; [|discriminate].
      assert (Ea : a3 = with_world a (fst (step e (fst (step e w4 (ODropManager dep))) (ODropManager ctx)))) by (injection H as <- _; reflexivity).
      assert (Ep : p2 = mk_provider c (S c) (Some d)) by (injection H as _ <-; reflexivity). clear H. subst a3 p2.
      cbn [a_world with_world v_context v_dep v_data].
      assert (Hd4 : handle_of (w_mhandles w4) dep = Some mi) by (rewrite F1; now apply K).
      destruct (sw_drop e page _ w4 dep mi R4 Hd4) as (D1 & D2 & D3 & D4 & D5).
      pose proof (reaches_more e page _ w4 (ODropManager dep) R4) as R5. set (w5 := fst (step e w4 (ODropManager dep))) in *.
      assert (Hc5 : handle_of (w_mhandles w5) ctx = Some mi) by (rewrite D1, F1; apply handle_upd_other; [exact Ncd|now apply K]).
      destruct (sw_drop e page _ w5 ctx mi R5 Hc5) as (G1 & G2 & G3 & G4 & G5).
      pose proof (reaches_more e page _ w5 (ODropManager ctx) R5) as R6. set (w6 := fst (step e w5 (ODropManager ctx))) in *.
      assert (M1 : forall z v, z <> ctx -> z <> dep -> handle_of (w_mhandles w2) z = Some v -> handle_of (w_mhandles w6) z = Some v).
      { intros z v X1 X2 Hz. rewrite G1, D1, F1. apply handle_upd_other; [exact X1|]. apply handle_upd_other; [exact X2|exact Hz]. }
      split; [|split; [apply M1; [lia|lia|exact N1]|split; [apply M1; [lia|lia|exact N2]|reflexivity]]].
      split.
      * eexists. split; [exact R6|]. intros id. rewrite !loaded_snoc, !in_app_iff. cbn. rewrite app_nil_r. intuition contradiction.
      * intros k id. assert (M4 : handle_of (w_mhandles w4) (S c) = Some mi2) by now rewrite F1.
        assert (M5 : handle_of (w_mhandles w5) (S c) = Some mi2) by (rewrite D1; apply handle_upd_other; [lia|exact M4]).
        destruct (Live _ _ _ R4 _ M4) as (q & Hq). destruct (Live _ _ _ R5 _ M5) as (q' & Hq').
        rewrite (G4 mi2 q' Hq' Nm k id), (D4 mi2 q Hq Nm k id). destruct (Kn eq_refl) as [Kn' _].
        rewrite (Kn' k id), (Kn2 k id). reflexivity.
      * now rewrite G2, D2, F2, B3, A3.
      * now rewrite G3, D3, F4, B4, A4.
      * intros z v Hz. rewrite G1, D1, F1 in Hz. apply handle_upd_inv in Hz. destruct Hz as [Z1 Hz]. apply handle_upd_inv in Hz. destruct Hz as [Z2 Hz].
        destruct (Inv2 _ _ Hz) as [V|V]; [now left|right]. auto.
      * intros z Z1 Z2 Hz. assert (Hz4 : handle_of (w_mhandles w4) z = Some mi) by (rewrite F1; now apply K).
        destruct (D5 z Hz4 Z2) as [Y1 Y2].
        assert (Hz5 : handle_of (w_mhandles w5) z = Some mi) by (rewrite D1; apply handle_upd_other; [exact Z2|exact Hz4]).
        destruct (G5 z Hz5 Z1) as [Y3 Y4]. split; [now rewrite Y3, Y1, F3, B2, A2|].
        intros k cid. rewrite (Y4 mi k cid), (Y2 mi k cid).
        destruct (Live _ _ _ R2 _ (K _ _ Hz)) as (q & Hq). rewrite (F5 mi q Hq (not_eq_sym Nm)), (B6 mi k cid). apply A6.
      * eapply steps_trans; [exact (steps_one (fun _ _ => False) e w (OCloneManager h2) (Tm w (OCloneManager h2) ltac:(discriminate)))|]. eapply steps_trans; [exact (steps_one (fun _ _ => False) e w1 (OCloneManager h2) (Tm w1 (OCloneManager h2) ltac:(discriminate)))|].
        eapply steps_trans; [eapply steps_res; [apply (Tm _ (OLoad (S c) d)); discriminate|exact Es]|].
        eapply steps_trans; [exact (steps_one (fun _ _ => False) e w4 (ODropManager dep) (Tm w4 (ODropManager dep) ltac:(discriminate)))|]. apply steps_one, Tm. discriminate.
Qed.
