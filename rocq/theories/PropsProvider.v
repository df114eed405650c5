(** * PropsProvider: providers, on the server and hydrated (C62-C64). *)

From Coq Require Import String Ascii List NArith Bool Arith Lia Permutation.
From Verif Require Import Str StrFacts Ast Render CssParser Ids IdFacts Manager SpecManager
  ManagerFacts ManagerInv ManagerSteps ManagerCore ManagerProps Hydrate Hooks SpecHooks
  HookFacts HookOnly HookKeep PropsManager PropsHydrate PropsHooks Provider SpecProvider ProviderFacts.
Import ListNotations.
Local Open Scope list_scope.
Local Opaque parse to_style_str.

(** ** C62: the classes of the server, after hydration *)

(** A component with the sheet of a registered style gets the class of that style. *)
Lemma registered_class e page ids a ctx mi p s cid c :
  app_good e page ids a -> handle_of (w_mhandles (a_world a)) ctx = Some mi ->
  manager_prefix (a_world a) mi p -> registered (a_world a) mi (style_key p s) cid ->
  nth_error (w_contents (a_world a)) cid = Some c ->
  (forall src, user_source a src = true -> s_sheet src = s -> exists a' x,
     use_style e (Some ctx) src a = Some (a', x) /\ get_id (a_world a') x = Some (c_id c))
  /\ (forall loc, exists a0 src a',
        component_css e (Some ctx) loc s a = Some (a0, src)
        /\ into_classes e src a0 = Some (a', c_id c :: match loc with Some x => [x] | None => [] end)).
Proof.
  intros G Hh (m & Hm & Ep) Rg Hc.
  assert (K : exists w1 h1, step e (a_world a) (OCloneManager ctx) = (w1, RHandle h1)
      /\ handle_of (w_mhandles w1) h1 = Some mi /\ registered w1 mi (style_key p s) cid
      /\ manager_prefix w1 mi p /\ (exists c1, nth_error (w_contents w1) cid = Some c1 /\ c_id c1 = c_id c)
      /\ good e page ids w1 (guards a) (h1 :: dflt a)).
  { destruct (step e (a_world a) (OCloneManager ctx)) as [w1 r] eqn:S.
    assert (exists h, r = RHandle h) as [h1 ->].
    { cbn [step] in S. unfold clone_manager in S. rewrite Hh in S. injection S as _ <-. eauto. }
    assert (C : clone_handle e ctx (a_world a) = Some (w1, h1)) by (unfold clone_handle; now rewrite S).
    destruct (clone_handle_spec _ _ _ _ _ _ _ _ _ G C) as (G1 & S1 & A1 & A2 & A3 & A4 & A5 & _).
    destruct (steps_like _ _ _ _ _ S1 Hm) as (m1 & Hm1 & (L & _)).
    destruct (clone_result _ _ _ _ _ S) as (Eh & _).
    exists w1, h1. split; auto. split; [now apply (A4 mi Hh)|]. split; [auto|]. split; [exists m1; split; congruence|].
    split; [exists c; split; congruence|].
    eapply good_fresh; [exact G|exact S|reflexivity|discriminate|discriminate|exact Eh|now apply (A4 mi Hh)]. }
  destruct K as (w1 & h1 & S & Hh1 & Rg1 & (m1 & Hm1 & Ep1) & (c1 & Hc1 & Ec1) & G1).
  split.
  - intros src Us Es. unfold use_style, context_manager. rewrite S. cbv zeta. cbn [a_world with_world].
    set (w2 := drop_source e src w1).
    assert (K : steps e w1 w2 /\ handle_of (w_mhandles w2) h1 = Some mi).
    { split; [apply steps_drop_source|]. unfold w2, drop_source. destruct (s_manager src) as [hs|] eqn:Em; auto.
      apply step_mhandle_kept; auto. intros E. injection E as ->. apply andb_prop in Us. destruct Us as [_ Us]. rewrite Em in Us.
      destruct (clone_result _ _ _ _ _ S) as (Eh & _). destruct (handle_of (w_mhandles (a_world a)) h1) eqn:Hx; [|discriminate].
      apply handle_lt in Hx. lia. }
    destruct K as (St & Hh2). assert (Cd : cored e w1) by (exists ids; eapply good_core; eauto).
    destruct (keep_steps _ _ _ mi (style_key p s) cid St Cd eq_refl Rg1) as [Rg2|[_ Dd]]; [|now elim (Dd h1)].
    destruct (steps_like _ _ _ _ _ St Hm1) as (m2 & Hm2 & (L2 & _)). destruct (steps_contents _ _ _ _ _ St Hc1) as (c2 & Hc2 & B).
    apply base_fields in B. destruct B as (B & _).
    assert (Re : exists l, reaches e page l w2).
    { destruct (gd_reach _ _ _ _ _ _ G1) as (l & Re & _). unfold w2, drop_source. destruct (s_manager src) as [hs|]; [|eauto].
      exists (l ++ [ODropManager hs]). now apply reaches_step. }
    destruct Re as (l & Re). unfold new_style, manager_of. rewrite Hh2, Hm2, L2, Ep1, Es.
    destruct (create_registered_shares _ _ _ _ _ _ _ _ _ Re Hh2 Rg2 Hc2) as (w3 & S3 & Gi & _ & Hx & _).
    rewrite S3. do 2 eexists. split; [reflexivity|]. cbn [a_world with_world].
    unfold get_id, handle_content in Gi. rewrite Hx in Gi. destruct (nth_error (w_contents w3) cid) as [c3|] eqn:Hc3; [|discriminate].
    rewrite (drop_manager_kept e w3 h1 _ cid c3 Hx Hc3). cbn in Gi. congruence.
  - intros loc. unfold component_css, context_manager. rewrite S. cbn [with_manager from_sheet drop_source s_manager a_world with_world s_sheet s_location].
    destruct (gd_reach _ _ _ _ _ _ G1) as (l & Re & _).
    destruct (create_registered_shares _ _ _ _ _ _ _ _ _ Re Hh1 Rg1 Hc1) as (w3 & S3 & Gi & _ & Hx & _).
    unfold get_id, handle_content in Gi. rewrite Hx in Gi. destruct (nth_error (w_contents w3) cid) as [c3|] eqn:Hc3; [|discriminate].
    cbn in Gi. do 3 eexists. split; [reflexivity|]. unfold into_classes. cbn [s_manager s_sheet s_location a_world with_world].
    unfold new_style, manager_of. rewrite Hh1, Hm1, Ep1, S3. cbv zeta. rewrite (drop_manager_kept e w3 h1 _ cid c3 Hx Hc3).
    replace (c_id c3) with (c_id c) by congruence. reflexivity.
Qed.

Lemma new_style_content e ids h mi s w w' x p :
  core e ids [] w -> handle_of (w_mhandles w) h = Some mi -> manager_prefix w mi p ->
  new_style e h s w = (w', RHandle x) ->
  steps e w w' /\ exists cid c, handle_of (w_handles w') x = Some cid /\ nth_error (w_contents w') cid = Some c
       /\ c_key c = style_key p s /\ c_mgr c = mi.
Proof.
  intros Co Hh (m & Hm & Ep) H. unfold new_style, manager_of in H. rewrite Hh, Hm, Ep in H.
  split; [eapply steps_res; [|exact H]; tm|].
  destruct (create_result e ids _ _ _ _ _ Co H) as (_ & mj & cid & c & H1 & H2 & _ & H3 & H4 & H5 & _).
  exists cid, c. repeat split; auto. congruence.
Qed.
Lemma prefix_steps e w w' mi p : steps e w w' -> manager_prefix w mi p -> manager_prefix w' mi p.
Proof. intros S (m & Hm & Ep). destruct (steps_like _ _ _ _ _ S Hm) as (m' & Hm' & (L & _)). exists m'. split; congruence. Qed.
Lemma core_drop_source e ids src w : core e ids [] w -> core e ids [] (drop_source e src w).
Proof.
  intros C. unfold drop_source. destruct (s_manager src) as [h|]; [|exact C].
  apply (core_step e ids w (ODropManager h)); [exact C|]. intros id [].
Qed.

(** Whatever a component is given as a class is the id of a style of its manager. *)
Lemma class_content e page ids a ctx s a' id mi p :
  app_good e page ids a -> handle_of (w_mhandles (a_world a)) ctx = Some mi ->
  manager_prefix (a_world a) mi p -> component_class e ctx s a a' id ->
  app_good e page ids a' /\ steps e (a_world a) (a_world a')
  /\ exists cid c, nth_error (w_contents (a_world a')) cid = Some c
       /\ c_id c = id /\ c_key c = style_key p s /\ c_mgr c = mi.
Proof.
  intros G Hh Pf [src x Us Es U Gi|loc a0 src rest C I].
  - destruct (good_use_style _ _ _ _ _ _ _ _ G Us U) as [G' _]. split; [exact G'|].
    unfold use_style in U. destruct (context_manager e (Some ctx) a) as [[a1 h]|] eqn:E; [|discriminate].
    destruct (steps_context _ _ _ _ _ E) as (S1 & _ & mi' & C & Hh1). cbn in C. rewrite Hh in C. injection C as <-.
    destruct (good_context e page ids _ _ _ _ G E) as [G1 _]. cbv zeta in U.
    pose proof (core_drop_source e ids src _ (good_core _ _ _ _ _ _ G1)) as Co.
    pose proof (steps_drop_source e src (a_world a1)) as S2.
    set (w1 := drop_source e src (a_world a1)) in *.
    destruct (new_style e h (s_sheet src) w1) as [w2 [z| | | | |]] eqn:S; try discriminate.
    assert (Ea : a' = with_world a1 (fst (step e w2 (ODropManager h)))) by (injection U as <- _; reflexivity).
    assert (Ex : z = x) by (injection U as _ <-; reflexivity). clear U. subst a' z. cbn [a_world with_world] in *.
    assert (Hh2 : handle_of (w_mhandles w1) h = Some mi).
    { destruct (handle_of (w_mhandles w1) h) as [mj|] eqn:Hj.
      - f_equal. eapply passes_same; [eapply passes_steps; exact S2|exact Hh1|exact Hj].
      - unfold new_style, manager_of in S. rewrite Hj in S. discriminate. }
    destruct (new_style_content e ids h mi (s_sheet src) w1 w2 x p Co Hh2) as (S3 & cid & c & H1 & H2 & H3 & H4); auto.
    { eapply prefix_steps; [exact S2|]. eapply prefix_steps; [exact S1|exact Pf]. }
    assert (S4 : steps e w2 (fst (step e w2 (ODropManager h)))) by (apply steps_one; tm).
    split; [eapply steps_trans; [exact S1|]; eapply steps_trans; [exact S2|]; eapply steps_trans; [exact S3|exact S4]|].
    rewrite (drop_manager_kept e w2 h x cid c H1 H2) in Gi. injection Gi as <-.
    destruct (steps_contents _ _ _ _ _ S4 H2) as (c' & Hc' & B). apply base_fields in B. destruct B as (B1 & B2 & _ & B4 & _).
    exists cid, c'. split; [exact Hc'|]. repeat split; congruence.
  - unfold component_css in C. destruct (context_manager e (Some ctx) a) as [[a1 h]|] eqn:E; [|discriminate].
    cbn [with_manager from_sheet drop_source s_manager s_sheet s_location] in C.
    assert (Ea : a0 = with_world a1 (a_world a1)) by (injection C as <- _; reflexivity).
    assert (Es : src = mk_source s (Some h) loc) by (injection C as _ <-; reflexivity). clear C. subst a0 src.
    destruct (steps_context _ _ _ _ _ E) as (S1 & _ & mi' & C & Hh1). cbn in C. rewrite Hh in C. injection C as <-.
    destruct (good_context e page ids _ _ _ _ G E) as [G1 _].
    destruct (good_forget _ _ _ _ _ _ _ G1) as [G2 Nh].
    assert (G0 : app_good e page ids (with_world a1 (a_world a1))) by exact G2.
    assert (Us : user_source (with_world a1 (a_world a1)) (mk_source s (Some h) loc) = true).
    { unfold user_source. cbn [s_manager a_world with_world]. rewrite Hh1, andb_true_r. cbn [free].
      apply negb_true_iff. destruct (existsb (Nat.eqb h) (manager_handles (with_world a1 (a_world a1)))) eqn:X; auto.
      apply existsb_exists in X. destruct X as (z & Iz & Ez). apply Nat.eqb_eq in Ez. subst z. now elim Nh. }
    destruct (good_classes _ _ _ _ _ _ _ G0 Us I) as [G' _]. split; [exact G'|].
    unfold into_classes in I. cbn [s_manager s_sheet s_location a_world with_world] in I.
    destruct (new_style e h s (a_world a1)) as [w2 [x| | | | |]] eqn:S; try discriminate. cbv zeta in I.
    destruct (new_style_content e ids h mi s (a_world a1) w2 x p (good_core _ _ _ _ _ _ G1) Hh1) as (S3 & cid & c & H1 & H2 & H3 & H4); auto.
    { eapply prefix_steps; [exact S1|exact Pf]. }
    rewrite (drop_manager_kept e w2 h x cid c H1 H2) in I.
    set (w3 := fst (step e w2 (ODropManager h))) in *. set (w4 := fst (step e w3 (ODropStyle x))) in *.
    assert (Ea : a' = with_world (with_world a1 (a_world a1)) w4) by (injection I as <- _; reflexivity).
    assert (Ei : id = c_id c) by (injection I as _ <-; reflexivity). clear I. subst a' id. cbn [a_world with_world].
    assert (S4 : steps e w2 w4).
    { eapply steps_trans; [apply (steps_one e w2 (ODropManager h)); tm|]. apply (steps_one e w3 (ODropStyle x)); tm. }
    split; [eapply steps_trans; [exact S1|]; eapply steps_trans; [exact S3|exact S4]|].
    destruct (steps_contents _ _ _ _ _ S4 H2) as (c' & Hc' & B). apply base_fields in B. destruct B as (B1 & B2 & _ & B4 & _).
    exists cid, c'. split; [exact Hc'|]. repeat split; congruence.
Qed.

(** Below a hydrated provider a component gets the class recorded for its sheet. *)
Theorem hydrated_component_class : forall y e page l a h d a1 p mi l2 a2 ctx r s prefix,
  arun y e (app_start page) l = Some a ->
  handle_of (w_mhandles (a_world a)) h = Some mi ->
  provide e h (Some d) a = Some (a1, p) ->
  arun y e a1 l2 = Some a2 -> existsb unregisters l2 = false ->
  handle_of (w_mhandles (a_world a2)) ctx = Some mi -> manager_prefix (a_world a2) mi prefix ->
  In r d -> r_key r = style_key prefix s ->
  (forall src, user_source a2 src = true -> s_sheet src = s -> exists a3 x,
     use_style e (Some ctx) src a2 = Some (a3, x) /\ get_id (a_world a3) x = Some (r_id r))
  /\ (forall loc, exists a0 src a3,
        component_css e (Some ctx) loc s a2 = Some (a0, src)
        /\ into_classes e src a0 = Some (a3, r_id r :: match loc with Some x => [x] | None => [] end)).
Proof.
  intros y e page l a h d a1 p mi l2 a2 ctx r s prefix R Hh P R2 NU Hc Pf Ir Ek. apply good_reached in R.
  destruct (provide_spec _ _ _ _ _ _ _ _ R P) as (mi' & Hh' & G1 & _ & _ & _ & _ & _ & _ & _ & _ & K & _).
  rewrite Hh in Hh'. injection Hh' as <-. destruct (K _ Ir) as (cid & c & Rg & Hcc & <-).
  destruct (steps_arun _ _ _ _ _ _ _ G1 R2 NU) as [St _]. pose proof (good_arun _ _ _ _ _ _ _ G1 R2) as G2.
  destruct (keep_steps _ _ _ mi (r_key r) cid St ltac:(eexists; eapply good_core; exact G1) ltac:(now rewrite Ek) Rg) as [Rg2|[_ Dd]]; [|now elim (Dd ctx)].
  destruct (steps_contents _ _ _ _ _ St Hcc) as (c2 & Hc2 & B). apply base_fields in B. destruct B as (<- & _).
  rewrite Ek in Rg2. eapply registered_class; eauto.
Qed.
Print Assumptions hydrated_component_class.

(** What the server's provider hands over lists the classes its components got. *)
Lemma Q_class e (Q : world -> Prop) ctx s a a' id :
  (forall w o, (forall h d, o <> OLoad h d) -> Q w -> Q (fst (step e w o))) ->
  component_class e ctx s a a' id -> Q (a_world a) -> Q (a_world a').
Proof.
  intros Qs [src x Us Es U Gi|loc a0 src rest C I] H.
  - exact (Q_use_style e Q Qs _ _ _ _ _ H U).
  - eapply Q_classes; [exact Qs| |exact I]. unfold component_css in C.
    destruct (context_manager e (Some ctx) a) as [[a1 h]|] eqn:E; [|discriminate]. injection C as <- _. cbn [a_world with_world].
    exact (Q_context e Q Qs _ _ _ _ H E).
Qed.

Theorem server_data_lists_classes : forall y e page l a ctx mi prefix s a1 id l2 a2 p,
  arun y e (app_start page) l = Some a -> loads_nothing l ->
  handle_of (w_mhandles (a_world a)) ctx = Some mi -> manager_prefix (a_world a) mi prefix ->
  component_class e ctx s a a1 id ->
  arun y e a1 l2 = Some a2 -> loads_nothing l2 ->
  handle_of (w_mhandles (a_world a2)) (v_context p) = Some mi -> keeps_data (a_world a2) mi ->
  exists r, In r (server_state e p a2) /\ r_key r = style_key prefix s /\ r_id r = id.
Proof.
  intros y e page l a ctx mi prefix s a1 id l2 a2 p R NL Hh Pf Cl R2 NL2 Hp (m & d & Hm & Hd).
  assert (H0 : hydrated_below 0 (a_world a2)).
  { assert (Qs : forall w o, (forall h d, o <> OLoad h d) -> hydrated_below 0 w -> hydrated_below 0 (fst (step e w o)))
      by (intros; now apply hydrated_step).
    eapply Q_arun; [exact Qs|exact NL2| |exact R2]. eapply Q_class; [exact Qs|exact Cl|].
    eapply Q_arun; [exact Qs|exact NL| |exact R]. intros cid c Hc. destruct cid; discriminate Hc. }
  apply good_reached in R. destruct (class_content _ _ _ _ _ _ _ _ _ _ R Hh Pf Cl) as (G1 & _ & cid & c & Hc & Ei & Ek & Em).
  assert (K : exists c', nth_error (w_contents (a_world a2)) cid = Some c' /\ base c' = base c).
  { apply (Q_arun y e (fun w => exists c', nth_error (w_contents w) cid = Some c' /\ base c' = base c)) with (l := l2) (a := a1); eauto.
    intros w o _ (c' & H1 & H2). destruct (step_contents e w o cid c' H1) as (c2 & H3 & H4). exists c2. split; congruence. }
  destruct K as (c' & Hc' & B). apply base_fields in B. destruct B as (B1 & B2 & _ & B4 & B5).
  pose proof (good_arun _ _ _ _ _ _ _ G1 R2) as G2. destruct (gd_reach _ _ _ _ _ _ G2) as (lr & Re & _).
  unfold server_state. rewrite (static_data_lists_created_styles _ _ _ _ _ _ _ Re Hp Hm) by congruence.
  exists (mk_record (c_key c') (c_id c') (c_text c')). cbn. split; [|split; congruence].
  apply (in_map (fun c => mk_record (c_key c) (c_id c) (c_text c))). apply filter_In. split; [eapply nth_error_In; eauto|].
  apply andb_true_intro. split; [|apply Nat.eqb_eq; congruence].
  destruct (c_hydrated c') eqn:Hy; auto. apply (H0 _ _ Hc') in Hy. lia.
Qed.
Print Assumptions server_data_lists_classes.

(** Both together: the component gets the class it got on the server. *)
Theorem hydrated_component_has_server_class :
  forall ys es ps ls sa sctx smi prefix s sa1 id ls2 sa2 sp yc ec pc lc ca h mi ca1 p lc2 ca2 ctx,
  (* the server: a component with the sheet [s] is rendered below a provider *)
  arun ys es (app_start ps) ls = Some sa -> loads_nothing ls ->
  handle_of (w_mhandles (a_world sa)) sctx = Some smi -> manager_prefix (a_world sa) smi prefix ->
  component_class es sctx s sa sa1 id ->
  arun ys es sa1 ls2 = Some sa2 -> loads_nothing ls2 ->
  handle_of (w_mhandles (a_world sa2)) (v_context sp) = Some smi -> keeps_data (a_world sa2) smi ->
  (* the client: a provider with a manager [mi] is hydrated with the server's state, and below
     it, later, a component with the same sheet is rendered *)
  arun yc ec (app_start pc) lc = Some ca ->
  handle_of (w_mhandles (a_world ca)) h = Some mi ->
  provide ec h (Some (server_state es sp sa2)) ca = Some (ca1, p) ->
  arun yc ec ca1 lc2 = Some ca2 -> existsb unregisters lc2 = false ->
  handle_of (w_mhandles (a_world ca2)) ctx = Some mi -> manager_prefix (a_world ca2) mi prefix ->
  (forall src, user_source ca2 src = true -> s_sheet src = s -> exists ca3 x,
     use_style ec (Some ctx) src ca2 = Some (ca3, x) /\ get_id (a_world ca3) x = Some id)
  /\ (forall loc, exists ca0 src ca3,
        component_css ec (Some ctx) loc s ca2 = Some (ca0, src)
        /\ into_classes ec src ca0 = Some (ca3, id :: match loc with Some x => [x] | None => [] end)).
Proof.
  intros ys es ps ls sa sctx smi prefix s sa1 id ls2 sa2 sp yc ec pc lc ca h mi ca1 p lc2 ca2 ctx
    R1 N1 H1 P1 C1 R2 N2 H2 K2 R3 H3 P3 R4 U4 H4 P4.
  destruct (server_data_lists_classes _ _ _ _ _ _ _ _ _ _ _ _ _ _ R1 N1 H1 P1 C1 R2 N2 H2 K2) as (r & I & E & <-).
  eapply hydrated_component_class; eauto.
Qed.
Print Assumptions hydrated_component_has_server_class.

(** A server and a client: the classes [use_style] gives on the two sides. *)
Definition ssr_env : env :=
  mk_env false false None false (fun n => lit "s" ++ decimal (N.of_nat n)).
Definition ssr_ops : list aop := [AOp (OBuild (lit "app") None true true)].
Definition ssr_provider : provider := mk_provider 0 0 None.

Definition ssr_app : app :=
  match arun (mk_yew true true) ssr_env (app_start []) ssr_ops with Some a => a | None => app_start [] end.
Definition ssr_app1 : app :=
  match use_style ssr_env (Some 0) (demo_source "red") ssr_app with Some (a, _) => a | None => app_start [] end.
Definition ssr_app2 : app :=
  match arun (mk_yew true true) ssr_env ssr_app1
          [AUseStyle (Some 0) (demo_source "blue"); AMount (Some 0) (demo_source "grey"); AUnmount 0] with
  | Some a => a | None => app_start [] end.
Definition ssr_data : list record := server_state ssr_env ssr_provider ssr_app2.
(** The page the server sends. *)
Definition ssr_page : dom :=
  [mk_container true true (EOther :: map (fun r => EStyle (r_id r) (r_text r)) ssr_data)].

Example server_side_ex :
  arun (mk_yew true true) ssr_env (app_start []) ssr_ops = Some ssr_app /\ loads_nothing ssr_ops
  /\ handle_of (w_mhandles (a_world ssr_app)) 0 = Some 0 /\ manager_prefix (a_world ssr_app) 0 (lit "app")
  /\ component_class ssr_env 0 (demo_sheet "red") ssr_app ssr_app1 (lit "app-s0")
  /\ handle_of (w_mhandles (a_world ssr_app2)) 0 = Some 0 /\ keeps_data (a_world ssr_app2) 0
  /\ map r_id ssr_data = [lit "app-s0"; lit "app-s1"; lit "app-global-s2"].
Proof.
  split; [vm_compute; reflexivity|]. split; [intros h d [E|[]]; discriminate E|]. split; [now vm_compute|].
  split; [eexists; split; vm_compute; reflexivity|]. split; [|split; [now vm_compute|split; [do 2 eexists; split; vm_compute; reflexivity|now vm_compute]]].
  apply class_hook with (src := demo_source "red") (x := 0); now vm_compute.
Qed.

Example hydrated_class_ex : exists ca ca1 p ca2 ca3,
  arun (mk_yew true true) demo_env (app_start ssr_page) [AOp (OBuild (lit "app") (Some 0) true false)] = Some ca
  /\ provide demo_env 0 (Some ssr_data) ca = Some (ca1, p)
  /\ arun (mk_yew true true) demo_env ca1
       [AUseStyle (Some (v_context p)) (demo_source "pink"); AMount (Some (v_context p)) (demo_source "grey")] = Some ca2
  /\ handle_of (w_mhandles (a_world ca2)) (v_context p) = Some 0 /\ manager_prefix (a_world ca2) 0 (lit "app")
  /\ use_style demo_env (Some (v_context p)) (demo_source "red") ca2 = Some (ca3, 2)
  /\ get_id (a_world ca3) 2 = Some (lit "app-s0").
Proof.
  do 5 eexists. split; [vm_compute; reflexivity|]. split; [vm_compute; reflexivity|]. split; [vm_compute; reflexivity|].
  split; [now vm_compute|]. split; [eexists; split; vm_compute; reflexivity|]. split; vm_compute; reflexivity.
Qed.

(** ** C63: the elements the server sent *)

Lemma texts_page id d t : texts_of id d = [t] -> In id (page_ids d).
Proof.
  intros E. assert (I : In t (texts_of id d)) by (rewrite E; now left). clear E.
  unfold texts_of in I. apply in_flat_map in I. destruct I as (n & In_ & I). unfold page_ids. apply in_flat_map. exists n. split; auto.
  destruct (n_in_document n); [|contradiction]. unfold texts_in in I. apply in_flat_map in I. destruct I as ([i t'|] & Ic & I); [|contradiction].
  destruct (str_eqb i id) eqn:E; [|contradiction]. apply str_eqb_eq in E. subst i. apply in_flat_map. exists (EStyle id t'). split; auto. now left.
Qed.

(** The page holds the recorded style once; it stays there, once, while the manager of the
    provider lives. *)
Theorem hydrated_page_keeps_styles : forall y e page l a h d a1 p mi l2 a2 r,
  e_wasm e = true -> e_document e = true ->
  arun y e (app_start page) l = Some a -> loads_nothing l ->
  handle_of (w_mhandles (a_world a)) h = Some mi ->
  provide e h (Some d) a = Some (a1, p) -> NoDup (map r_id d) ->
  (forall r', In r' d -> In (r_id r') (page_ids page)) ->
  arun y e a1 l2 = Some a2 -> loads_nothing l2 -> existsb unregisters l2 = false ->
  ids_apart e page (w_draws (a_world a2)) -> mlive (a_world a2) mi ->
  In r d -> k_global (r_key r) = false -> plain_ident (r_id r) = true ->
  texts_of (r_id r) page = [r_text r] ->
  texts_of (r_id r) (w_dom (a_world a2)) = [r_text r].
Proof.
  intros y e page l a h d a1 p mi l2 a2 r Ew Ed R NL Hh P ND Ip R2 NL2 NU (Ap1 & Ap2) Lv Ir Kg Pl Tx.
  assert (H0 : hydrated_below 0 (a_world a)).
  { apply (Q_arun y e (hydrated_below 0) ltac:(intros; now apply hydrated_step) l (app_start page)); auto.
    intros cid c Hc. destruct cid; discriminate Hc. }
  apply good_reached in R. rewrite (loads_nothing_ids _ NL) in R.
  destruct (provide_spec _ _ _ _ _ _ _ _ R P) as (mi' & Hh' & G1 & _ & _ & _ & _ & _ & _ & _ & _ & _ & K).
  rewrite Hh in Hh'. injection Hh' as <-. cbn [List.app] in G1.
  destruct (steps_arun _ _ _ _ _ _ _ G1 R2 NU) as [St _]. pose proof (good_arun _ _ _ _ _ _ _ G1 R2) as G2.
  rewrite (loads_nothing_ids _ NL2), app_nil_r in G2. destruct (gd_reach _ _ _ _ _ _ G2) as (lr & Re & El).
  assert (H2 : hydrated_below (List.length (w_contents (a_world a1))) (a_world a2)).
  { apply (Q_arun y e (hydrated_below _) ltac:(intros; now apply hydrated_step) l2 a1); auto.
    intros cid c Hc _. eapply nth_lt; eauto. }
  assert (NC : no_clash e page lr (w_draws (a_world a2))).
  { split; [exact Ap1|]. split; [exact Ap2|]. intros id I. rewrite El in I. apply in_map_iff in I. destruct I as (r' & <- & I). apply Ap2. auto. }
  rewrite <- Tx. destruct (page_elements e page lr (a_world a2) (r_id r) Re NC Ew Ed Pl (texts_page _ _ _ Tx)) as [PE _]. apply PE.
  intros cid c Hc Ei. right. exists mi, (r_key r).
  (* it was loaded *)
  assert (Hy : c_hydrated c = true).
  { destruct (c_hydrated c) eqn:Hy; auto. exfalso. pose proof (o_origin _ _ _ _ (good_core _ _ _ _ _ _ G2) _ _ Hc) as O.
    rewrite Hy in O. destruct O as (n & Ln & Mn). pose proof (Ap2 _ (texts_page _ _ _ Tx)) as N. unfold made_id in Mn.
    rewrite Ei in Mn. revert Mn. eapply not_drawn_new; [exact N|exact Ln]. }
  pose proof (H2 _ _ Hc Hy) as Lt. destruct (nth_error (w_contents (a_world a1)) cid) as [c1|] eqn:Hc1; [|apply nth_error_None in Hc1; lia].
  destruct (steps_contents _ _ _ _ _ St Hc1) as (c2 & Hc2 & B). rewrite Hc in Hc2. injection Hc2 as <-.
  apply base_fields in B. destruct B as (B1 & _ & _ & _ & B5).
  destruct (K _ _ Hc1) as [Hc0|(r' & Ir' & E1 & E2 & Rg)].
  { assert (Hy1 : c_hydrated c1 = true) by congruence. pose proof (H0 _ _ Hc0 Hy1). lia. }
  assert (r' = r) as ->.
  { assert (E : r_id r' = r_id r) by congruence. clear - ND Ir Ir' E. induction d as [|x d IH]; [contradiction|].
    cbn in ND. inversion ND as [|? ? N1 N2]; subst. destruct Ir as [->|Ir], Ir' as [->|Ir']; auto.
    - elim N1. rewrite <- E. now apply in_map.
    - elim N1. rewrite E. now apply in_map. }
  destruct (keep_steps _ _ _ mi (r_key r) cid St ltac:(eexists; eapply good_core; exact G1) Kg Rg) as [Rg2|[_ Dd]]; auto.
  destruct Lv as [h' Lv]. now elim (Dd h').
Qed.
Print Assumptions hydrated_page_keeps_styles.

(** In the example, the page of the server with its three elements. *)
Example hydrated_page_ex : exists ca ca1 p ca2,
  arun (mk_yew true true) demo_env (app_start ssr_page) [AOp (OBuild (lit "app") (Some 0) true false)] = Some ca
  /\ provide demo_env 0 (Some ssr_data) ca = Some (ca1, p)
  /\ arun (mk_yew true true) demo_env ca1
       [AUseStyle (Some (v_context p)) (demo_source "red"); AUseStyle (Some (v_context p)) (demo_source "pink"); AOp (ODropStyle 0);
        AMount (Some (v_context p)) (demo_source "grey"); AUnmount 0] = Some ca2
  /\ NoDup (map r_id ssr_data) /\ (forall r, In r ssr_data -> In (r_id r) (page_ids ssr_page))
  /\ ids_apart demo_env ssr_page (w_draws (a_world ca2)) /\ mlive (a_world ca2) 0
  /\ (forall r, In r ssr_data -> plain_ident (r_id r) = true /\ texts_of (r_id r) ssr_page = [r_text r])
  /\ List.length (filter (fun r => negb (k_global (r_key r))) ssr_data) = 2
  (* the global style is gone with the component that carried it *)
  /\ texts_of (lit "app-global-s2") (w_dom (a_world ca2)) = [].
Proof.
  do 4 eexists. split; [vm_compute; reflexivity|]. split; [vm_compute; reflexivity|]. split; [vm_compute; reflexivity|].
  split.
  { vm_compute. repeat constructor; cbn; intuition discriminate. }
  split.
  { assert (E : page_ids ssr_page = map r_id ssr_data) by (vm_compute; reflexivity).
    intros r I. rewrite E. exact (in_map r_id ssr_data r I). }
  split.
  { match goal with |- ids_apart _ _ ?n => assert (A : no_clash demo_env ssr_page [] n) end.
    { apply counter_no_clash; auto; [now vm_compute|]. intros id [I|I] p m; [|contradiction].
      assert (T : existsb (char_eqb (ch "t")) id = false).
      { assert (T : forallb (fun id => negb (existsb (char_eqb (ch "t")) id)) (page_ids ssr_page) = true) by (vm_compute; reflexivity).
        apply negb_true_iff. exact (proj1 (forallb_forall _ _) T id I). }
      intros E. subst id. rewrite !existsb_app in T.
      replace (existsb (char_eqb (ch "t")) (lit "-style-")) with true in T by reflexivity.
      rewrite orb_true_r in T. discriminate T. }
    destruct A as (A & B & _). now split. }
  split; [exists 0; now vm_compute|]. split; [|split; now vm_compute].
  assert (K : forallb (fun r => plain_ident (r_id r) && match texts_of (r_id r) ssr_page with [t] => str_eqb t (r_text r) | _ => false end) ssr_data = true)
    by (vm_compute; reflexivity).
  intros r I. apply (proj1 (forallb_forall _ _) K r) in I. apply andb_prop in I. destruct I as [I1 I2]. split; [exact I1|].
  destruct (texts_of (r_id r) ssr_page) as [|t [|? ?]]; try discriminate I2. apply str_eqb_eq in I2. rewrite I2. reflexivity.
Qed.

(** ** C64: another manager *)

(** The provider is rendered with another manager: the data is loaded into that one, and
    components get the same classes, but when the first manager goes, with the page's elements,
    the styles of the second have none. *)
Theorem provider_change_keeps_styles_refuted : exists e page l d s id, forall y, exists a a1 p a2 p2 a3 a4 x,
  (* two managers; the provider is hydrated with the first, which the program then lets go *)
  arun y e (app_start page) l = Some a
  /\ provide e 0 (Some d) a = Some (a1, p) /\ arun y e a1 [AOp (ODropManager 0)] = Some a2
  /\ List.length (texts_of id (w_dom (a_world a2))) = 1
  (* it is rendered again with the second *)
  /\ provide_again y e p 1 a2 = Some (a3, p2)
  /\ use_style e (Some (v_context p2)) (from_sheet None s) a3 = Some (a4, x)
  /\ get_id (a_world a4) x = Some id /\ texts_of id (w_dom (a_world a4)) = [].
Proof.
  exists demo_env, ssr_page,
    [AOp (OBuild (lit "app") (Some 0) true false); AOp (OBuild (lit "app") (Some 0) true false)],
    ssr_data, (demo_sheet "red"), (lit "app-s0").
  intros [[|] [|]]; do 8 eexists; (split; [vm_compute; reflexivity|]); (split; [vm_compute; reflexivity|]); (split; [vm_compute; reflexivity|]);
    (split; [now vm_compute|]); (split; [vm_compute; reflexivity|]); (split; [vm_compute; reflexivity|]); split; now vm_compute.
Qed.
Print Assumptions provider_change_keeps_styles_refuted.

Lemma provide_good e page ids h data a a1 p :
  app_good e page ids a -> provide e h data a = Some (a1, p) -> exists ids', app_good e page ids' a1.
Proof.
  intros G H. destruct data as [d|].
  - destruct (provide_spec _ _ _ _ _ _ _ _ G H) as (_ & _ & G1 & _). eauto.
  - unfold provide in H. destruct (clone_handle e h (a_world a)) as [[w1 c]|] eqn:C1; [|discriminate].
    destruct (clone_handle e h w1) as [[w2 dep]|] eqn:C2; [|discriminate]. unfold app_good in G.
    destruct (clone_handle_spec _ _ _ _ _ _ _ _ _ G C1) as (G1 & _).
    destruct (clone_handle_spec _ _ _ _ _ _ _ _ _ G1 C2) as (G2 & _). injection H as <- _. eauto.
Qed.

Lemma upd_same {A} (l : list A) i f x : nth_error l i = Some x -> f x = x -> upd l i f = l.
Proof. intros E H. destruct (upd_split _ _ f _ E) as (p & q & -> & <- & ->). now rewrite H. Qed.

(** Rendered again with the same manager, a provider changes nothing that can be seen: no
    element, no style, no registration, no count of owners; and the components below it find the same manager. *)
Theorem provider_same_manager_partial : forall y e page l a h data a1 p l2 a2 h2 mi a3 p2,
  arun y e (app_start page) l = Some a -> provide e h data a = Some (a1, p) ->
  arun y e a1 l2 = Some a2 ->
  handle_of (w_mhandles (a_world a2)) (v_context p) = Some mi ->
  handle_of (w_mhandles (a_world a2)) (v_dep p) = Some mi ->
  handle_of (w_mhandles (a_world a2)) h2 = Some mi ->
  provide_again y e p h2 a2 = Some (a3, p2) ->
  w_dom (a_world a3) = w_dom (a_world a2)
  /\ w_contents (a_world a3) = w_contents (a_world a2)
  /\ w_mgrs (a_world a3) = w_mgrs (a_world a2)
  /\ handle_of (w_mhandles (a_world a3)) (v_context p2) = Some mi
  /\ (v_context p <> v_dep p -> handle_of (w_mhandles (a_world a3)) (v_dep p2) = Some mi)
  /\ v_data p2 = v_data p.
Proof.
  intros y e page l a h data a1 p l2 a2 h2 mi a3 p2 R P R2 Hc Hd Hh H.
  apply good_reached in R. destruct (provide_good _ _ _ _ _ _ _ _ R P) as (ids1 & G1).
  pose proof (good_arun _ _ _ _ _ _ _ G1 R2) as G2. remember (ids1 ++ aloaded l2) as ids. clear Heqids.
  destruct (core_manager _ _ _ _ _ _ (good_core _ _ _ _ _ _ G2) Hh) as (m & Hm & Hs).
  unfold provide_again, clone_handle in H. destruct (step e (a_world a2) (OCloneManager h2)) as [w1 [c| | | | |]] eqn:S; try discriminate.
  destruct (clone_result _ _ _ _ _ S) as (Ec & mj & F1 & F2). rewrite Hh in F1. injection F1 as <-.
  assert (Ew : w1 = fst (step e (a_world a2) (OCloneManager h2))) by now rewrite S.
  assert (Hd1 : handle_of (w_mhandles w1) (v_dep p) = Some mi) by (rewrite Ew; apply step_mhandle_kept; auto; discriminate).
  assert (Hh1 : handle_of (w_mhandles w1) h2 = Some mi) by (rewrite Ew; apply step_mhandle_kept; auto; discriminate).
  assert (Hc1 : handle_of (w_mhandles w1) (v_context p) = Some mi) by (rewrite Ew; apply step_mhandle_kept; auto; discriminate).
  unfold same_manager in H. rewrite Hd1, Hh1, Nat.eqb_refl in H.
  assert (Ea : a3 = with_world a2 (fst (step e w1 (ODropManager (v_context p))))) by (injection H as <- _; reflexivity).
  assert (Ep : p2 = mk_provider c (v_dep p) (v_data p)) by (injection H as _ <-; reflexivity). clear H. subst a3 p2.
  cbn [v_context v_dep v_data a_world with_world].
  assert (Hk : handle_of (w_mhandles (fst (step e w1 (ODropManager (v_context p))))) c = Some mi).
  { apply step_mhandle_kept; auto. intros E. injection E as E. apply handle_lt in Hc. lia. }
  assert (Hk' : v_context p <> v_dep p -> handle_of (w_mhandles (fst (step e w1 (ODropManager (v_context p))))) (v_dep p) = Some mi).
  { intros N. apply step_mhandle_kept; auto. intros E. injection E as E. contradiction. }
  cbn [step] in S. unfold clone_manager in S. rewrite Hh in S. injection S as S _.
  cbn [step] in *. unfold drop_manager in *. rewrite Hc1 in *.
  assert (Hm1 : nth_error (w_mgrs w1) mi = Some (set_mstrong (Datatypes.S (m_strong m)) m)) by (rewrite <- S; cbn; now rewrite nth_upd_eq, Hm).
  rewrite Hm1 in *. cbn [m_strong set_mstrong Nat.pred] in *. destruct (Nat.eqb (m_strong m) 0) eqn:Z; [apply Nat.eqb_eq in Z; lia|].
  cbn [fst] in *. split; [rewrite <- S; reflexivity|]. split; [rewrite <- S; reflexivity|]. split; [|split; [exact Hk|auto]].
  rewrite <- S. cbn [w_mgrs with_mgrs with_mhandles]. rewrite upd_upd. eapply upd_same; [exact Hm|]. now destruct m.
Qed.
Print Assumptions provider_same_manager_partial.

Example provider_same_manager_ex : exists ca ca1 p ca2 ca3 p2,
  arun (mk_yew true true) demo_env (app_start ssr_page) [AOp (OBuild (lit "app") (Some 0) true false)] = Some ca
  /\ provide demo_env 0 (Some ssr_data) ca = Some (ca1, p)
  /\ arun (mk_yew true true) demo_env ca1 [AUseStyle (Some (v_context p)) (demo_source "red")] = Some ca2
  /\ provide_again (mk_yew true true) demo_env p 0 ca2 = Some (ca3, p2)
  /\ v_context p2 <> v_context p /\ handle_of (w_mhandles (a_world ca3)) (v_context p2) = Some 0
  /\ texts_of (lit "app-s0") (w_dom (a_world ca3)) = texts_of (lit "app-s0") ssr_page.
Proof.
  do 6 eexists. split; [vm_compute; reflexivity|]. split; [vm_compute; reflexivity|]. split; [vm_compute; reflexivity|].
  split; [vm_compute; reflexivity|]. split; [vm_compute; discriminate|]. split; now vm_compute.
Qed.

(** ** C65: what a provider leaves behind *)

Lemma drop_other e ids w x z mi m :
  core e ids [] w -> handle_of (w_mhandles w) x = Some mi -> handle_of (w_mhandles w) z = Some mi -> x <> z ->
  nth_error (w_mgrs w) mi = Some m ->
  fst (step e w (ODropManager x))
  = with_mgrs (with_mhandles w (upd (w_mhandles w) x (fun _ => None))) (upd (w_mgrs w) mi (set_mstrong (Nat.pred (m_strong m)))).
Proof.
  intros C Hx Hz N Hm.
  pose proof (core_step e ids w (ODropManager x) C ltac:(intros id [])) as C'.
  pose proof (step_mhandle_kept e w (ODropManager x) z mi Hz ltac:(congruence)) as Hz'.
  destruct (core_manager _ _ _ _ _ _ C' Hz') as (m' & Hm' & Hs). revert Hm'.
  cbn [step]. unfold drop_manager. rewrite Hx, Hm. cbv zeta. destruct (Nat.eqb _ _); [|reflexivity]. cbn [fst].
  match goal with |- context [release_all e ?l ?v] => destruct (release_all_frame e l v) as (_ & F & _) end.
  rewrite F. cbn [w_mgrs with_mgrs with_mhandles]. rewrite nth_upd_eq, Hm. cbn. intros [= <-]. cbn in Hs. lia.
Qed.

(** A provider that is unmounted while the program keeps its manager takes nothing with it and
    leaves nothing behind. *)
Theorem provider_gives_back : forall y e page l a h data a1 p l2 a2 h2 mi m,
  arun y e (app_start page) l = Some a -> provide e h data a = Some (a1, p) ->
  arun y e a1 l2 = Some a2 ->
  handle_of (w_mhandles (a_world a2)) (v_context p) = Some mi ->
  handle_of (w_mhandles (a_world a2)) (v_dep p) = Some mi -> v_context p <> v_dep p ->
  handle_of (w_mhandles (a_world a2)) h2 = Some mi -> h2 <> v_context p -> h2 <> v_dep p ->
  nth_error (w_mgrs (a_world a2)) mi = Some m ->
  let w := a_world (unprovide e p a2) in
  w_dom w = w_dom (a_world a2) /\ w_contents w = w_contents (a_world a2)
  /\ w_mgrs w = upd (w_mgrs (a_world a2)) mi (set_mstrong (m_strong m - 2))
  /\ (forall x, handle_of (w_mhandles w) x
       = if Nat.eqb x (v_context p) || Nat.eqb x (v_dep p) then None else handle_of (w_mhandles (a_world a2)) x).
Proof.
  intros y e page l a h data a1 p l2 a2 h2 mi m R P R2 Hc Hd Ncd Hh N1 N2 Hm. cbv zeta.
  apply good_reached in R. destruct (provide_good _ _ _ _ _ _ _ _ R P) as (ids1 & G1).
  pose proof (good_arun _ _ _ _ _ _ _ G1 R2) as G2. remember (ids1 ++ aloaded l2) as ids. clear Heqids.
  pose proof (good_core _ _ _ _ _ _ G2) as C.
  pose proof (core_step e ids _ (ODropManager (v_dep p)) C ltac:(intros id [])) as C'.
  pose proof (step_mhandle_kept e _ (ODropManager (v_dep p)) h2 mi Hh ltac:(congruence)) as Hh'.
  pose proof (step_mhandle_kept e _ (ODropManager (v_dep p)) (v_context p) mi Hc ltac:(congruence)) as Hc'.
  unfold unprovide. cbn [a_world with_world].
  pose proof (drop_other e ids _ (v_dep p) h2 mi m C Hd Hh ltac:(congruence) Hm) as E1.
  assert (Hm' : nth_error (w_mgrs (fst (step e (a_world a2) (ODropManager (v_dep p))))) mi = Some (set_mstrong (Nat.pred (m_strong m)) m)).
  { rewrite E1. cbn. now rewrite nth_upd_eq, Hm. }
  rewrite (drop_other e ids _ (v_context p) h2 mi _ C' Hc' Hh' ltac:(congruence) Hm'). rewrite E1. cbn.
  split; [reflexivity|]. split; [reflexivity|]. split.
  - rewrite upd_upd. eapply upd_ext; [exact Hm|]. destruct m as [q1 q2 q3 q4 q5 [|[|n]]]; cbn; unfold set_mstrong; cbn; f_equal; lia.
  - intros x. unfold handle_of. rewrite !nth_upd. rewrite (Nat.eqb_sym x (v_context p)), (Nat.eqb_sym x (v_dep p)).
    destruct (Nat.eqb (v_context p) x), (Nat.eqb (v_dep p) x); cbn [orb]; destruct (nth_error (w_mhandles (a_world a2)) x); reflexivity.
Qed.
Print Assumptions provider_gives_back.

(** What it takes when it is mounted: two handles on the manager. *)
Theorem provider_takes : forall e h data a a1 p mi,
  provide e h data a = Some (a1, p) -> handle_of (w_mhandles (a_world a)) h = Some mi ->
  w_mhandles (a_world a1) = w_mhandles (a_world a) ++ [Some mi; Some mi]
  /\ v_context p = List.length (w_mhandles (a_world a)) /\ v_dep p = S (List.length (w_mhandles (a_world a)))
  /\ w_handles (a_world a1) = w_handles (a_world a) /\ w_dom (a_world a1) = w_dom (a_world a)
  /\ (data = None -> w_contents (a_world a1) = w_contents (a_world a)).
Proof.
  intros e h data a a1 p mi H Hh. unfold provide, clone_handle in H. cbn [step] in H. unfold clone_manager in H. rewrite Hh in H.
  cbn [w_mhandles with_mhandles with_mgrs] in H. rewrite (HookFacts.handle_app _ _ _ _ Hh) in H. cbn [w_mhandles with_mhandles with_mgrs] in H.
  set (n := List.length (w_mhandles (a_world a) ++ [Some mi])) in H.
  assert (En : n = S (List.length (w_mhandles (a_world a)))) by (unfold n; rewrite app_length; cbn; lia).
  match type of H with context [load_state e n data ?w] => set (w2 := w) in H end.
  destruct data as [d|]; cbn [load_state] in H.
  - destruct (step e w2 (OLoad n d)) as [w3 []] eqn:L; try discriminate. injection H as <- <-. cbn [a_world with_world v_context v_dep].
    cbn [step] in L. destruct (handle_of (w_mhandles w2) n) as [mj|]; [|discriminate].
    assert (F : w_mhandles w3 = w_mhandles w2 /\ w_handles w3 = w_handles w2 /\ w_dom w3 = w_dom w2).
    { replace w3 with (fst (load_data mj d w2)) by now rewrite L. clear. generalize w2. clear. induction d as [|r l IH]; intros w; [auto|]. cbn [load_data].
      destruct (load_one mj r w) as [w1|] eqn:E; [|auto]. destruct (IH w1) as [-> [-> ->]]. clear IH.
      unfold load_one in E. destruct (nth_error (w_mgrs w) mj) as [m|]; [|now injection E as <-].
      destruct (reg_get _ _) as [cid|]; [|now injection E as <-].
      destruct (nth_error _ cid); [destruct (str_eqb _ _); [|discriminate]|]; now injection E as <-. }
    destruct F as (F1 & F2 & F3). rewrite F1, F2, F3. cbn. rewrite <- app_assoc. cbn. repeat split; auto. discriminate.
  - injection H as <- <-. cbn. rewrite <- app_assoc. cbn. repeat split; auto.
Qed.
Print Assumptions provider_takes.

Example provider_gives_back_ex : exists ca ca1 p ca2,
  arun (mk_yew true true) demo_env (app_start ssr_page) [AOp (OBuild (lit "app") (Some 0) true false)] = Some ca
  /\ provide demo_env 0 (Some ssr_data) ca = Some (ca1, p)
  /\ arun (mk_yew true true) demo_env ca1 [AUseStyle (Some (v_context p)) (demo_source "red")] = Some ca2
  /\ v_context p = 1 /\ v_dep p = 2
  /\ w_mhandles (a_world (unprovide demo_env p ca2)) = [Some 0; None; None; None]
  (* without a handle of the program the page's elements would go, too *)
  /\ texts_of (lit "app-s1") (w_dom (a_world (unprovide demo_env p ca2))) <> []
  /\ texts_of (lit "app-s1")
       (w_dom (a_world (unprovide demo_env p (with_world ca2 (fst (step demo_env (a_world ca2) (ODropManager 0))))))) = [].
Proof.
  do 4 eexists. split; [vm_compute; reflexivity|]. split; [vm_compute; reflexivity|]. split; [vm_compute; reflexivity|].
  split; [reflexivity|]. split; [reflexivity|]. split; [now vm_compute|]. split; [vm_compute; discriminate|now vm_compute].
Qed.
