(** * HookOnly: if only [Global] components make global styles, every global style alive is one of theirs. *)

From Coq Require Import String Ascii List NArith Bool Arith Lia Permutation.
From Verif Require Import Str StrFacts Ast Render CssParser Ids IdFacts Manager SpecManager
  ManagerFacts ManagerInv ManagerSteps ManagerCore ManagerProps Hydrate Hooks SpecHooks HookFacts.
Import ListNotations.
Local Open Scope list_scope.
Local Opaque parse to_style_str.

Definition scoped (w : world) (cid : nat) : Prop :=
  exists c, nth_error (w_contents w) cid = Some c /\ k_global (c_key c) = false.
Definition only (w : world) (gs : list guard) : Prop :=
  (forall h cid, handle_of (w_handles w) h = Some cid -> In h (map g_style gs) \/ scoped w cid)
  /\ (forall mi k cid, registered w mi k cid -> k_global k = true ->
        exists g, In g gs /\ handle_of (w_handles w) (g_style g) = Some cid).

Lemma scoped_step e w o cid : scoped w cid -> scoped (fst (step e w o)) cid.
Proof.
  intros (c & Hc & K). destruct (step_contents e w o cid c Hc) as (c' & Hc' & B). exists c'. split; auto.
  apply base_fields in B. destruct B as (_ & B & _). now rewrite B.
Qed.

(** Operations that neither make nor drop styles. *)
Definition manages (o : op) : bool :=
  match o with
  | OBuild _ _ _ _ | OCloneManager _ | ODropManager _ | ORead _ | OInsertOther _ _ | ORemoveOther _ _ => true
  | _ => false
  end.

Lemma manages_frame e w o : manages o = true ->
  w_handles (fst (step e w o)) = w_handles w
  /\ forall mi k cid, registered (fst (step e w o)) mi k cid -> registered w mi k cid.
Proof.
  intros M.
  assert (U : forall i f mi k cid, (forall m, incl (m_reg (f m)) (m_reg m)) ->
     forall w', w_mgrs w' = upd (w_mgrs w) i f -> registered w' mi k cid -> registered w mi k cid).
  { intros i f mi k cid F w' E (m & Hm & I). rewrite E, nth_upd in Hm. destruct (Nat.eqb_spec i mi) as [->|]; [|now exists m].
    destruct (nth_error (w_mgrs w) mi) as [x|] eqn:Hx; [|discriminate]. cbn in Hm. injection Hm as <-. exists x. split; auto. now apply F. }
  destruct o; try discriminate; cbn [step].
  - assert (G : forall x y mi k cid, m_reg x = [] -> registered (with_mhandles (with_mgrs w (w_mgrs w ++ [x])) y) mi k cid -> registered w mi k cid).
    { intros x y mi k cid Ex (m & Hm & I). cbn in Hm. apply nth_app_inv in Hm. destruct Hm as [Hm|[_ ->]]; [now exists m|].
      rewrite Ex in I. contradiction. }
    unfold build. destruct (e_wasm e); [|split; [reflexivity|]; intros mi k cid; now apply G].
    destruct cont; [split; [reflexivity|]; intros mi k cid; now apply G|].
    destruct (e_document e); [|auto]. destruct (e_head e); [split; [reflexivity|]; intros mi k cid; now apply G|auto].
  - unfold clone_manager. destruct (handle_of _ _) as [mj|]; [|auto]. split; auto. intros mi k cid.
    eapply U; [|reflexivity]. intros m. apply incl_refl.
  - unfold drop_manager. destruct (handle_of _ _) as [mj|]; [|auto].
    destruct (nth_error (w_mgrs w) mj) as [m|] eqn:Hm; [|auto]. cbv zeta. destruct (Nat.eqb _ _); cbn [fst].
    + match goal with |- context [release_all e ?l ?x] => destruct (release_all_frame e l x) as (_ & F2 & F3 & _) end.
      split; [now rewrite F3|]. intros mi k cid. eapply U; [|exact F2]. intros x y []. 
    + split; auto. intros mi k cid. eapply U; [|reflexivity]. intros x. apply incl_refl.
  - destruct (handle_of _ _); auto.
  - split; auto.
  - split; auto.
Qed.

Lemma only_manages e w o gs : manages o = true -> only w gs -> only (fst (step e w o)) gs.
Proof.
  intros M [O1 O2]. destruct (manages_frame e w o M) as [F1 F2]. split; rewrite F1.
  - intros h cid H. destruct (O1 h cid H); auto using scoped_step.
  - intros mi k cid R. apply F2 in R. eauto.
Qed.
Lemma only_perm w gs gs' : Permutation gs gs' -> only w gs -> only w gs'.
Proof.
  intros P [O1 O2]. split.
  - intros h cid H. destruct (O1 h cid H); auto. left. eapply Permutation_in; [apply Permutation_map; exact P|]. auto.
  - intros mi k cid R Q. destruct (O2 _ _ _ R Q) as (g & I & H). exists g. split; auto. eapply Permutation_in; eauto.
Qed.
Lemma only_drop_source e src w gs : only w gs -> only (drop_source e src w) gs.
Proof. unfold drop_source. destruct (s_manager src); auto. now apply only_manages. Qed.

Lemma unregister_frame e ids w h cid c :
  core e ids [] w -> handle_of (w_handles w) h = Some cid -> nth_error (w_contents w) cid = Some c ->
  let w' := fst (step e w (OUnregister h)) in
  w_handles w' = w_handles w
  /\ (forall mi k x, registered w' mi k x -> registered w mi k x /\ x <> cid)
  /\ (forall mi k x, registered w mi k x -> k <> c_key c \/ mi <> c_mgr c -> registered w' mi k x).
Proof.
  intros C Hh Hc. cbv zeta. cbn [step]. unfold unregister_style. rewrite Hh, Hc.
  assert (OK : forall mi k, registered w mi k cid -> k = c_key c /\ mi = c_mgr c).
  { intros mi k (m & Hm & I). destruct (o_reg _ _ _ _ C _ _ Hm) as (_ & _ & K). destruct (K _ _ I) as (c' & Hc' & K1 & K2).
    rewrite Hc in Hc'. injection Hc' as <-. auto. }
  destruct (o_content _ _ _ _ C _ _ Hc) as [Lt _].
  destruct (nth_error (w_mgrs w) (c_mgr c)) as [m|] eqn:Hm; [|apply nth_error_None in Hm; lia].
  destruct (o_reg _ _ _ _ C _ _ Hm) as (ND & Z & _).
  destruct (Nat.eqb_spec (m_strong m) 0) as [E|E].
  - cbn [fst]. split; auto. split; [|auto]. intros mi k x R. split; auto. intros ->. destruct (OK _ _ R) as [-> ->].
    destruct R as (m' & Hm' & I). rewrite Hm in Hm'. injection Hm' as <-. rewrite (Z E) in I. contradiction.
  - destruct (reg_remove (m_reg m) (c_key c)) as [r o] eqn:Rm.
    set (w1 := with_mgrs w (upd (w_mgrs w) (c_mgr c) (set_reg r))).
    assert (F : let w' := match o with Some x => release e x w1 | None => w1 end in
                w_handles w' = w_handles w /\ w_mgrs w' = w_mgrs w1).
    { cbv zeta. destruct o as [x|]; auto. destruct (release_frame e x w1) as (_ & F2 & F3 & _). split; auto. }
    cbn [fst] in *. destruct F as [F1 F2].
    assert (In_r : forall k x, In (k, x) r <-> In (k, x) (m_reg m) /\ k <> c_key c).
    { intros k x. apply reg_remove_spec in Rm. destruct Rm as [(_ & -> & N)|(a & y & b & _ & Em & -> & N)].
      - split; [|tauto]. intros I. split; auto. intros ->. apply N. apply in_map_iff. exists (c_key c, x). auto.
      - rewrite Em in *. rewrite map_app in ND. cbn in ND. apply NoDup_remove_2 in ND. rewrite <- map_app in ND. split.
        + intros I. split; [apply in_app_iff in I; apply in_app_iff; destruct I; [left|right; right]; auto|].
          intros ->. apply ND. apply in_map_iff. exists (c_key c, x). auto.
        + intros [I Nk]. apply in_app_iff in I. apply in_app_iff. destruct I as [I|[I|I]]; auto. congruence. }
    split; [exact F1|]. split.
    + intros mi k x (m' & Hm' & I). rewrite F2 in Hm'. unfold w1 in Hm'. cbn in Hm'. rewrite nth_upd in Hm'.
      destruct (Nat.eqb_spec (c_mgr c) mi) as [<-|Ne].
      * rewrite Hm in Hm'. cbn in Hm'. injection Hm' as <-. cbn in I. apply In_r in I. destruct I as [I Nk].
        assert (R : registered w (c_mgr c) k x) by (exists m; auto). split; auto. intros ->. now apply OK in R.
      * assert (R : registered w mi k x) by (exists m'; auto). split; auto. intros ->. apply OK in R. now apply Ne.
    + intros mi k x (m' & Hm' & I) Ne. unfold registered. rewrite F2. unfold w1. cbn. rewrite nth_upd.
      destruct (Nat.eqb_spec (c_mgr c) mi) as [<-|].
      * rewrite Hm. cbn. eexists. split; [reflexivity|]. cbn. apply In_r. rewrite Hm in Hm'. injection Hm' as <-.
        split; auto. destruct Ne; congruence.
      * now exists m'.
Qed.

Lemma drop_style_frame e w h :
  w_mgrs (fst (step e w (ODropStyle h))) = w_mgrs w.
Proof.
  cbn [step]. unfold drop_style. destruct (handle_of (w_handles w) h) as [c|]; [|auto]. cbn [fst].
  match goal with |- w_mgrs (release e ?l ?x) = _ => destruct (release_frame e l x) as (_ & -> & _) end. reflexivity.
Qed.

Lemma only_drop_value e ids w g gs cid :
  core e ids [] w -> handle_of (w_handles w) (g_style g) = Some cid -> ~ In (g_style g) (map g_style gs) ->
  only w (g :: gs) -> only (drop_value e g w) gs.
Proof.
  intros C Hh N [O1 O2]. unfold drop_value. destruct (core_held _ _ _ _ _ _ C Hh) as (c & Hc & _).
  destruct (unregister_frame _ _ _ _ _ _ C Hh Hc) as (F1 & F2 & _).
  set (w1 := fst (step e w (OUnregister (g_style g)))) in *.
  assert (D : w_handles (fst (step e w1 (ODropStyle (g_style g)))) = upd (w_handles w1) (g_style g) (fun _ => None)).
  { cbn [step]. unfold drop_style. rewrite F1, Hh. cbn [fst].
    match goal with |- w_handles (release e ?l ?x) = _ => destruct (release_frame e l x) as (_ & _ & -> & _) end. cbn. now rewrite ?F1. }
  split; rewrite D.
  - intros h x H. destruct (Nat.eq_dec (g_style g) h) as [<-|Ne]; [now rewrite handle_dropped in H|].
    unfold handle_of in H. rewrite nth_upd_ne in H by auto. fold (handle_of (w_handles w1) h) in H. rewrite F1 in H.
    apply O1 in H. destruct H as [[H|H]|H]; auto; [congruence|]. right. now apply scoped_step, scoped_step.
  - intros mi k x R Q. apply (registered_mgrs _ w1) in R; [|now rewrite drop_style_frame]. apply F2 in R. destruct R as [R Nx].
    destruct (O2 _ _ _ R Q) as (g' & [<-|I] & H); [congruence|]. exists g'. split; auto. apply handle_upd; [|now rewrite F1].
    intros E. apply N. rewrite E. now apply in_map.
Qed.

Lemma only_drop_guard y e page ids w g gs extra :
  good e page ids w (g :: gs) extra -> only w (g :: gs) -> only (drop_guard y e g w) gs.
Proof.
  intros G O. pose proof (good_out e page ids w g gs extra G) as (G1 & N & (mi & m & cid & c & _ & _ & Hh & _)).
  assert (OD : forall w gs, only w gs -> only (drop_deps e g w) gs).
  { intros w0 gs0 O0. unfold drop_deps. apply only_drop_source. now apply only_manages. }
  unfold drop_guard. destruct (y_key_first y).
  - eapply (only_drop_value e ids); [eapply good_core, (good_drop_deps e page ids w g gs extra G1)| |exact N|now apply OD].
    unfold drop_deps, drop_source. destruct (s_manager (g_source g)).
    + rewrite !(proj1 (manages_frame e _ (ODropManager _) eq_refl)). exact Hh.
    + rewrite !(proj1 (manages_frame e _ (ODropManager _) eq_refl)). exact Hh.
  - apply OD. eapply only_drop_value; eauto. eapply good_core; eauto.
Qed.

Lemma create_registered_inv e w h k w' x mi k' z :
  step e w (OCreate h k) = (w', RHandle x) -> registered w' mi k' z ->
  registered w mi k' z \/ k' = k /\ handle_of (w_handles w') x = Some z.
Proof.
  intros S R. cbn [step] in S. destruct (handle_of (w_mhandles w) h) as [mj|] eqn:Hh; [|discriminate].
  unfold get_or_register in S. destruct (nth_error (w_mgrs w) mj) as [m|] eqn:Hm; [|discriminate].
  destruct (reg_get (m_reg m) k) as [cid|] eqn:G.
  - injection S as <- <-. now left.
  - assert (U : forall f, (forall y, In y (m_reg (f m)) -> In y (m_reg m) \/ y = (k, List.length (w_contents w))) ->
       w_mgrs w' = upd (w_mgrs w) mj f -> registered w mi k' z \/ k' = k /\ z = List.length (w_contents w)).
    { intros f F E. destruct R as (m' & Hm' & I). rewrite E, nth_upd in Hm'. destruct (Nat.eqb_spec mj mi) as [->|]; [|left; now exists m'].
      rewrite Hm in Hm'. cbn in Hm'. injection Hm' as <-. apply F in I. destruct I as [I|I]; [left; now exists m|].
      injection I as -> ->. now right. }
    cbv zeta in S. destruct (e_debug e && _); [discriminate|].
    destruct (m_data m) as [ld|].
    + injection S as <- <-. edestruct U as [K|K]; [| |left; exact K|right].
      2: { unfold admit_content. cbn. apply upd_upd. }
      * cbn. intros q I. apply in_app_iff in I. destruct I as [I|[I|[]]]; auto.
      * destruct K as [-> ->]. split; auto. cbn. unfold handle_of. now rewrite nth_app_new.
    + destruct (mount _ _ _ _ _); [|discriminate]. injection S as <- <-. edestruct U as [K|K]; [| |left; exact K|right].
      2: { unfold admit_content. cbn. reflexivity. }
      * cbn. intros q I. apply in_app_iff in I. destruct I as [I|[I|[]]]; auto.
      * destruct K as [-> ->]. split; auto. cbn. unfold handle_of. now rewrite nth_app_new.
Qed.

Lemma only_new_guard e page ids w gs h src extra w' g :
  good e page ids w gs extra -> new_guard e h src w = Some (w', g) -> only w gs -> only w' (g :: gs).
Proof.
  intros G H [O1 O2]. unfold new_guard in H. destruct (manager_of w h) as [m|]; [|discriminate].
  destruct (step e w (OCreate h (global_key m (s_sheet src)))) as [w1 [x| | | | |]] eqn:S; try discriminate.
  injection H as <- <-. destruct (create_result e ids _ _ _ _ _ (good_core _ _ _ _ _ _ G) S) as (Ex & mi & cid & c & H1 & H2 & H2' & _).
  split.
  - intros h' z H. cbn [map g_style]. destruct (Nat.eq_dec x h') as [E|Ne]; [left; now left|]. rewrite H2' in H.
    unfold handle_of in H. destruct (nth_error (w_handles w ++ [Some cid]) h') as [[v|]|] eqn:En; try discriminate.
    apply nth_app_inv in En. destruct En as [En|[En _]]; [|lia].
    destruct (O1 h' z) as [I|I]; [unfold handle_of; now rewrite En|left; now right|right].
    change (scoped (fst (w1, RHandle x)) z). rewrite <- S. now apply scoped_step.
  - intros mj k z R Q. destruct (create_registered_inv _ _ _ _ _ _ _ _ _ S R) as [K|[_ K]].
    + destruct (O2 _ _ _ K Q) as (g & I & Hg). exists g. split; [now right|]. rewrite H2'. now apply handle_app.
    + eexists. split; [now left|]. exact K.
Qed.

Lemma only_memo y e page ids old h src w gs extra w' g :
  good e page ids w (olds old ++ gs) (h :: source_handles src ++ extra) -> memo y e old h src w = Some (w', g) ->
  only w (olds old ++ gs) -> only w' (g :: gs).
Proof.
  intros G H O. unfold memo in H. destruct old as [g0|]; cbn [olds List.app] in *.
  - destruct (same_manager _ _ _ && source_eqb _ _ _).
    + injection H as <- <-. apply only_drop_source. now apply (only_manages e _ (ODropManager h)).
    + destruct (y_drop_first y).
      * pose proof (good_drop_guard y e page ids _ _ _ _ G) as G1.
        eapply only_new_guard; [exact G1|exact H|]. eapply only_drop_guard; eauto.
      * destruct (new_guard e h src w) as [[w1 g1]|] eqn:E; [|discriminate]. injection H as <- <-.
        pose proof (only_new_guard _ _ _ _ _ _ _ _ _ _ G E O) as O1.
        apply (good_new_guard e page ids _ _ _ _ _ _ _ G) in E. destruct E as [E _].
        eapply only_drop_guard; [|eapply only_perm; [apply perm_swap|exact O1]].
        eapply good_perm; [apply perm_swap|apply Permutation_refl|exact E].
  - eapply only_new_guard; eauto.
Qed.

Lemma only_default e a a1 h : default_manager e a = Some (a1, h) -> only (a_world a) (guards a) -> only (a_world a1) (guards a1).
Proof.
  unfold default_manager. destruct (a_default a) as [d|].
  - destruct (step e (a_world a) (OCloneManager d)) as [w [h'| | | | |]] eqn:S; try discriminate. intros H O. injection H as <- <-.
    replace w with (fst (step e (a_world a) (OCloneManager d))) by now rewrite S. now apply only_manages.
  - destruct (step e (a_world a) (OBuild _ None true false)) as [w [h0| | | | |]] eqn:S0; try discriminate.
    destruct (step e w (OCloneManager h0)) as [w1 [h'| | | | |]] eqn:S1; try discriminate. intros H O. injection H as <- <-.
    cbn [a_world guards a_globals].
    replace w1 with (fst (step e w (OCloneManager h0))) by now rewrite S1. apply only_manages; auto.
    match type of S0 with step e ?v ?o = _ => replace w with (fst (step e v o)) by now rewrite S0 end. now apply only_manages.
Qed.
Lemma only_context e ctx a a1 h :
  context_manager e ctx a = Some (a1, h) -> only (a_world a) (guards a) -> only (a_world a1) (guards a1).
Proof.
  destruct ctx as [d|]; [|apply only_default]. cbn [context_manager].
  destruct (step e (a_world a) (OCloneManager d)) as [w [h'| | | | |]] eqn:S; try discriminate. intros H O. injection H as <- <-.
  replace w with (fst (step e (a_world a) (OCloneManager d))) by now rewrite S. now apply only_manages.
Qed.

Lemma only_render y e page ids old ctx src a a' g gs :
  app_good e page ids a -> Permutation (guards a) (olds old ++ gs) ->
  render_global y e old ctx src a = Some (a', g) -> only (a_world a) (guards a) ->
  only (a_world a') (g :: gs).
Proof.
  intros G P H O. unfold render_global in H. destruct (context_manager e ctx a) as [[a1 h]|] eqn:E; [|discriminate].
  destruct (good_context e page ids _ _ _ _ G E) as [G1 Eg]. pose proof (only_context _ _ _ _ _ E O) as O1.
  destruct (clone_source e src (a_world a1)) as [[w1 src1]|] eqn:Es; [|discriminate].
  destruct (good_clone_source e page ids _ _ _ _ _ _ G1 Es) as [G2 _].
  assert (O2 : only w1 (guards a1)).
  { unfold clone_source in Es. destruct (s_manager src) as [d|]; [|now injection Es as <- <-].
    destruct (step e (a_world a1) (OCloneManager d)) as [w [h'| | | | |]] eqn:S; try discriminate. injection Es as <- <-.
    replace w with (fst (step e (a_world a1) (OCloneManager d))) by now rewrite S. now apply only_manages. }
  destruct (memo y e old h src1 w1) as [[w2 g1]|] eqn:Em; [|discriminate]. injection H as <- <-.
  cbn [a_world with_world].
  assert (P1 : Permutation (guards a1) (olds old ++ gs)) by (unfold guards; rewrite Eg; exact P).
  eapply only_memo; [|exact Em|eapply only_perm; [exact P1|exact O2]].
  eapply good_perm; [exact P1| |exact G2]. symmetry. apply Permutation_middle.
Qed.

Lemma only_create e page ids w gs extra h k :
  good e page ids w gs extra -> k_global k = false -> only w gs -> only (fst (step e w (OCreate h k))) gs.
Proof.
  intros G Kg [O1 O2]. destruct (step e w (OCreate h k)) as [w1 r] eqn:S.
  assert (NH : (forall x, r <> RHandle x) -> w_handles w1 = w_handles w /\ w_mgrs w1 = w_mgrs w).
  { intros N. cbn [step] in S. destruct (handle_of (w_mhandles w) h) as [mj|]; [|now injection S as <- _].
    unfold get_or_register in S. destruct (nth_error (w_mgrs w) mj) as [m|]; [|now injection S as <- _].
    destruct (reg_get (m_reg m) k) as [cid|]; [injection S as _ <-; now elim (N (List.length (w_handles w)))|].
    cbv zeta in S. destruct (e_debug e && _); [now injection S as <- _|].
    destruct (m_data m) as [ld|]; [injection S as _ <-; eelim N; reflexivity|].
    destruct (mount _ _ _ _ _); [injection S as _ <-; eelim N; reflexivity|now injection S as <- _]. }
  assert (SC : forall z, scoped w z -> scoped w1 z).
  { intros z Hz. change (scoped (fst (w1, r)) z). rewrite <- S. now apply scoped_step. }
  cbn [fst]. assert (D : (exists x, r = RHandle x) \/ forall x, r <> RHandle x) by (destruct r; eauto; right; discriminate).
  destruct D as [[x ->]|D].
  - destruct (create_result e ids _ _ _ _ _ (good_core _ _ _ _ _ _ G) S) as (Ex & mi & cid & c & H1 & H2 & H2' & H3 & H4 & _).
    split.
    + intros h' z H. rewrite H2' in H.
      unfold handle_of in H. destruct (nth_error (w_handles w ++ [Some cid]) h') as [[v|]|] eqn:En; try discriminate.
      apply nth_app_inv in En. destruct En as [En|[En Ev]].
      * destruct (O1 h' z) as [I|I]; auto. unfold handle_of. now rewrite En.
      * right. injection Ev as ->. injection H as <-. exists c. split; auto. now rewrite H4.
    + intros mj k' z R Q. destruct (create_registered_inv _ _ _ _ _ _ _ _ _ S R) as [K|[K _]]; [|congruence].
      destruct (O2 _ _ _ K Q) as (g & I & Hg). exists g. split; auto. rewrite H2'. now apply handle_app.
  - destruct (NH D) as [E1 E2]. split; rewrite E1.
    + intros h' z H. destruct (O1 h' z H); auto.
    + intros mj k' z R. apply (registered_mgrs _ w) in R; [|auto]. eauto.
Qed.

Lemma only_op e page ids w gs extra o :
  good e page ids w gs extra -> only w gs -> globals_only (AOp o) = true ->
  (forall h, op_style o = Some h -> ~ In h (map g_style gs)) -> only (fst (step e w o)) gs.
Proof.
  intros G O K N. destruct (manages o) eqn:M; [now apply only_manages|]. destruct o; try discriminate.
  - eapply only_create; eauto. cbn in K. now apply negb_true_iff in K.
  - specialize (N h eq_refl). destruct O as [O1 O2]. cbn [step]. unfold clone_style.
    destruct (handle_of (w_handles w) h) as [cid|] eqn:H; [|now split].
    assert (SC : forall z, scoped w z -> scoped (fst (step e w (OCloneStyle h))) z) by auto using scoped_step.
    cbn [step] in SC. unfold clone_style in SC. rewrite H in SC. cbn [fst] in *. split.
    + intros h' z H'. cbn in H'. unfold handle_of in H'.
      destruct (nth_error (w_handles w ++ [Some cid]) h') as [[v|]|] eqn:En; try discriminate.
      apply nth_app_inv in En. destruct En as [En|[En Ev]].
      * destruct (O1 h' z) as [I|I]; auto. unfold handle_of. now rewrite En.
      * right. injection Ev as ->. injection H' as <-. destruct (O1 _ _ H); [contradiction|auto].
    + intros mj k' z R Q. apply (registered_mgrs _ w) in R; [|auto].
      destruct (O2 _ _ _ R Q) as (g & I & Hg). exists g. split; auto. cbn. now apply handle_app.
  - specialize (N h eq_refl). destruct O as [O1 O2]. split.
    + intros h' z H'. destruct (step_handles e w (ODropStyle h)) as [E|[(x & E)|(h0 & E & E')]].
      * rewrite E in H'. destruct (O1 _ _ H'); auto using scoped_step.
      * exfalso. assert (L : List.length (w_handles (fst (step e w (ODropStyle h)))) = List.length (w_handles w)).
        { cbn [step]. unfold drop_style. destruct (handle_of (w_handles w) h); [|auto]. cbn [fst].
          match goal with |- context [release e ?l ?x] => destruct (release_frame e l x) as (_ & _ & -> & _) end.
          cbn. apply upd_length. }
        rewrite E, app_length in L. cbn in L. lia.
      * injection E as <-. rewrite E' in H'. destruct (Nat.eq_dec h h') as [<-|Ne]; [now rewrite handle_dropped in H'|].
        unfold handle_of in H'. rewrite nth_upd_ne in H' by auto. destruct (O1 _ _ H'); auto using scoped_step.
    + intros mj k' z R Q. apply (registered_mgrs _ w) in R; [|now rewrite drop_style_frame].
      destruct (O2 _ _ _ R Q) as (g & I & Hg). exists g. split; auto. apply step_handle_kept; auto.
      intros E. injection E as ->. apply N. now apply in_map.
  - destruct (handle_of (w_handles w) h) as [cid|] eqn:H.
    2: { cbn [step]. unfold unregister_style. now rewrite H. }
    destruct (core_held _ _ _ _ _ _ (good_core _ _ _ _ _ _ G) H) as (c & Hc & _).
    destruct (unregister_frame _ _ _ _ _ _ (good_core _ _ _ _ _ _ G) H Hc) as (F1 & F2 & _).
    destruct O as [O1 O2]. split; rewrite F1.
    + intros h' z H'. destruct (O1 _ _ H'); auto using scoped_step.
    + intros mj k' z R. apply F2 in R. destruct R as [R _]. eauto.
Qed.

Lemma only_classes e page ids src a a' cl :
  app_good e page ids a -> only (a_world a) (guards a) -> user_source a src = true ->
  into_classes e src a = Some (a', cl) -> only (a_world a') (guards a').
Proof.
  intros G O U H. destruct (good_classes e page ids src a a' cl G U H) as [_ Eg]. unfold guards. rewrite Eg. fold (guards a).
  apply andb_prop in U. destruct U as [F _]. unfold into_classes in H.
  assert (K : exists a1 h, match s_manager src with Some h => Some (a, h) | None => default_manager e a end = Some (a1, h)
            /\ app_good e page ids a1 /\ a_globals a1 = a_globals a /\ only (a_world a1) (guards a)
            /\ ~ In h (dflt a1 ++ owned (guards a1))).
  { destruct (s_manager src) as [h|].
    - exists a, h. repeat split; auto; try apply G; try apply O. now apply free_not_in in F.
    - destruct (default_manager e a) as [[a1 h]|] eqn:D; [|discriminate]. exists a1, h. split; auto.
      pose proof (only_default _ _ _ _ D O) as O'.
      apply (good_default e page ids _ _ _ G) in D. destruct D as [D E]. apply good_forget in D.
      unfold guards in O'. rewrite E in O'. now repeat split; auto; try apply D; try apply O'. }
  destruct K as (a1 & h & E & G1 & Eg1 & O1 & N). rewrite E in H. clear E.
  assert (Egg : guards a1 = guards a) by (unfold guards; now rewrite Eg1).
  unfold new_style in H. destruct (manager_of (a_world a1) h) as [m|]; [|discriminate].
  destruct (step e (a_world a1) (OCreate h (style_key (m_prefix m) (s_sheet src)))) as [w2 [x| | | | |]] eqn:S; try discriminate.
  cbv zeta in H. destruct (get_id (fst (step e w2 (ODropManager h))) x) as [i|]; [|discriminate]. injection H as <- <-.
  cbn [a_world with_world].
  assert (G2 : good e page ids w2 (guards a1) (dflt a1)).
  { replace w2 with (fst (step e (a_world a1) (OCreate h (style_key (m_prefix m) (s_sheet src))))) by now rewrite S.
    apply good_step; auto; discriminate. }
  assert (O2 : only w2 (guards a1)).
  { replace w2 with (fst (step e (a_world a1) (OCreate h (style_key (m_prefix m) (s_sheet src))))) by now rewrite S.
    eapply only_create; eauto. now rewrite Egg. }
  assert (G3 : good e page ids (fst (step e w2 (ODropManager h))) (guards a1) (dflt a1)).
  { apply good_step; auto; try discriminate. intros h' Q. now injection Q as <-. }
  rewrite <- Egg. change (only (fst (step e (fst (step e w2 (ODropManager h))) (ODropStyle x))) (guards a1)).
  eapply only_op; [exact G3|now apply only_manages|reflexivity|].
  intros h' Q. injection Q as <-. intros I. apply in_map_iff in I. destruct I as (g & Hg & I).
  destruct (create_result e ids _ _ _ _ _ (good_core _ _ _ _ _ _ G1) S) as (Ex & _).
  pose proof (gd_guards _ _ _ _ _ _ G1) as GG. rewrite Forall_forall in GG.
  destruct (GG _ I) as (mi & m' & cid & c & _ & _ & Hh & _). apply handle_lt in Hh. lia.
Qed.

Lemma only_use_style e page ids ctx src a a' x :
  app_good e page ids a -> only (a_world a) (guards a) -> user_source a src = true ->
  use_style e ctx src a = Some (a', x) -> only (a_world a') (guards a').
Proof.
  intros G O U H. destruct (good_use_style e page ids ctx src a a' x G U H) as [_ Eg]. unfold guards. rewrite Eg. fold (guards a).
  unfold use_style in H. destruct (context_manager e ctx a) as [[a1 h]|] eqn:E; [|discriminate].
  destruct (good_context e page ids _ _ _ _ G E) as [G1 Eg1]. pose proof (only_context _ _ _ _ _ E O) as O1.
  assert (Egg : guards a1 = guards a) by (unfold guards; now rewrite Eg1). rewrite Egg in *.
  apply context_fresh in E. destruct E as [Ed Eh].
  assert (G2 : good e page ids (drop_source e src (a_world a1)) (guards a) (h :: dflt a1)).
  { unfold drop_source. apply andb_prop in U. destruct U as [F1 F2]. destruct (s_manager src) as [d|]; [|exact G1].
    apply free_not_in in F1. destruct (handle_of (w_mhandles (a_world a)) d) as [mi|] eqn:Hd; [|discriminate].
    apply handle_lt in Hd. apply good_step; auto; [discriminate|]. intros h' Q. injection Q as <-.
    intros I. cbn in I. destruct I as [I|I]; [lia|]. apply in_app_iff in I. destruct I as [I|I].
    - unfold dflt in I. destruct (a_default a1) as [d'|] eqn:D'; [|contradiction]. destruct I as [->|[]].
      destruct (Ed _ eq_refl) as [Q|Q]; [|lia]. apply F1. rewrite app_owned. apply in_app_iff. left. unfold dflt. rewrite Q. now left.
    - apply F1. rewrite app_owned. apply in_app_iff. now right. }
  destruct (new_style e h (s_sheet src) (drop_source e src (a_world a1))) as [w2 [z| | | | |]] eqn:S; try discriminate.
  injection H as <- <-. cbn [a_world with_world]. apply (only_manages e w2 (ODropManager h)); [reflexivity|].
  unfold new_style in S. destruct (manager_of (drop_source e src (a_world a1)) h) as [m|]; [|discriminate].
  match type of S with ?s = _ => replace w2 with (fst s) by now rewrite S end.
  eapply only_create; eauto. now apply only_drop_source.
Qed.

Lemma only_astep y e page ids a o a' :
  app_good e page ids a -> only (a_world a) (guards a) -> globals_only o = true -> astep y e a o = Some a' ->
  only (a_world a') (guards a').
Proof.
  intros G O M H. destruct o as [o|ctx src|i ctx src|i|src|ctx src]; try discriminate; cbn [astep] in H.
  - destruct (free _ (op_style o) && free _ (op_mhandle o)) eqn:F; [|discriminate].
    assert (O1 : only (fst (step e (a_world a) o)) (guards a)).
    { eapply only_op; eauto. apply andb_prop in F. destruct F as [F _]. intros h E. rewrite E in F. now apply free_not_in in F. }
    destruct (step e (a_world a) o) as [w [ | | | | | ]]; try discriminate; injection H as <-; exact O1.
  - destruct (render_global y e None ctx src a) as [[a1 g]|] eqn:R; [|discriminate]. injection H as <-.
    destruct (good_render y e page ids None ctx src a a1 g (guards a) G (Permutation_refl _) R) as [_ Eg].
    pose proof (only_render y e page ids None ctx src a a1 g (guards a) G (Permutation_refl _) R O) as O1.
    cbn [a_world with_globals]. unfold guards. cbn [a_globals with_globals]. rewrite guards_app, Eg. fold (guards a).
    eapply only_perm; [apply Permutation_cons_append|exact O1].
  - destruct (nth_error (a_globals a) i) as [[g|]|] eqn:E; try discriminate.
    destruct (render_global y e (Some g) ctx src a) as [[a1 g1]|] eqn:R; [|discriminate]. injection H as <-.
    destruct (guards_upd _ _ _ (Some g1) E) as (gs & P1 & P2).
    destruct (good_render y e page ids (Some g) ctx src a a1 g1 gs G P1 R) as [_ Eg].
    pose proof (only_render y e page ids (Some g) ctx src a a1 g1 gs G P1 R O) as O1.
    cbn [a_world with_globals]. unfold guards. cbn [a_globals with_globals]. rewrite Eg.
    eapply only_perm; [symmetry; exact P2|exact O1].
  - destruct (nth_error (a_globals a) i) as [[g|]|] eqn:E; try discriminate. injection H as <-.
    destruct (guards_upd _ _ _ None E) as (gs & P1 & P2).
    cbn [a_world with_globals with_world]. unfold guards. cbn [a_globals with_globals].
    eapply only_perm; [symmetry; exact P2|]. eapply only_drop_guard.
    + eapply good_perm; [exact P1|apply Permutation_refl|exact G].
    + eapply only_perm; eauto.
  - destruct (user_source a src) eqn:U; [|discriminate].
    destruct (into_classes e src a) as [[a1 cl]|] eqn:E; [|discriminate]. injection H as <-. cbn [fst]. eapply only_classes; eauto.
  - destruct (user_source a src) eqn:U; [|discriminate].
    destruct (use_style e ctx src a) as [[a1 x]|] eqn:E; [|discriminate]. injection H as <-. cbn [fst]. eapply only_use_style; eauto.
Qed.
Lemma only_arun y e page l : forall ids a a',
  app_good e page ids a -> only (a_world a) (guards a) -> forallb globals_only l = true ->
  arun y e a l = Some a' -> only (a_world a') (guards a').
Proof.
  induction l as [|o l IH]; intros ids a a' G O F H; cbn [arun] in H.
  - now injection H as <-.
  - destruct (astep y e a o) as [a1|] eqn:S; [|discriminate]. cbn in F. apply andb_prop in F. destruct F as [F1 F2].
    pose proof (only_astep _ _ _ _ _ _ _ G O F1 S) as O1. apply (good_astep _ _ _ _ _ _ _ G) in S. eapply IH; eauto.
Qed.
Lemma only_reached y e page l a :
  forallb globals_only l = true -> arun y e (app_start page) l = Some a -> only (a_world a) (guards a).
Proof.
  intros F H. eapply only_arun; [apply good_start| |exact F|exact H].
  split; [|intros mi k cid (m & Hm & _); now destruct mi in Hm]. cbn. intros h cid H0. unfold handle_of in H0. now destruct h.
Qed.
