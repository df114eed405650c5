(** * PropsTree: a whole application, rendered on the server and hydrated in the browser (C78). *)

From Coq Require Import String Ascii List NArith Bool Arith Lia.
From Verif Require Import Str StrFacts Ast Render CssParser SheetCache Ids IdFacts Manager SpecManager
  ManagerFacts ManagerInv ManagerSteps ManagerCore ManagerProps Hydrate Hooks SpecHooks HookFacts HookOnly
  HookTame HookKeep PropsManager SpecProgress PropsProgress Create SpecCreate CreateFacts PropsCreate
  Component SpecComponent ComponentFacts PropsHydrate Provider ProviderFacts PropsComponent Tree SpecTree TreeFacts.
Import ListNotations.
Local Open Scope list_scope.
Local Opaque parse to_style_str.

(** ** The server *)

(** Whatever the order in which a server renders the components of an application, it does not
    panic, and it can go on to the end, if the CSS can be read back (in release builds nothing is
    read back, and all CSS that parses can be). *)
Theorem tree_serves : forall y e page l p ms sm v schedule,
  crun y e (prog_start page) l = Some p ->
  managers_are p ms sm -> well_formed (List.length ms) false v ->
  (forall k, k < List.length ms -> new_collector (a_world (p_app p)) (sm k)) ->
  (forall k m x, k < List.length ms -> nth_error (w_mgrs (a_world (p_app p))) (sm k) = Some m ->
     In x (css_of v) -> rereads e (mk_key false (m_prefix m) (snd x))) ->
  exists p1 l1, lrun y e true ms None schedule (begin v) p = LNext p1 l1
    /\ exists more p2 l2, lrun y e true ms None more l1 p1 = LNext p2 l2 /\ finished l2 = true.
Proof.
  intros y e page l p ms sm v sch H M W Nc Rd. apply pgood_creached in H.
  pose proof (sstate_begin e page _ ms sm p v H M W Nc) as S.
  assert (C : can_read e ms sm p (begin v)). { intros k m x L Hm I. rewrite begin_pending in I. eauto. }
  destruct (run_never_panics y e page _ ms sm sch p (begin v) S C) as (p1 & l1 & R & S1 & C1). exists p1, l1. split; auto.
  destruct (run_finishes y e page _ ms sm p1 l1 S1 C1) as (sch2 & p2 & l2 & R2 & F). eauto.
Qed.
Print Assumptions tree_serves.

Lemma sgood_served e page ids ms sm p : snode e page ids ms sm p -> forall l cur,
  sgood ms sm (a_world (p_app p)) cur l ->
  everywhere (fun k b cls => exists h d, nth_error ms k = Some h
     /\ snd (Manager.step e (a_world (p_app p)) (ORead h)) = RData d /\ served d b cls) cur l.
Proof.
  intros N. induction l as [|b ch nx IHn|b cls ch IHc nx IHn|k d ch nx IHn|k v ch IHc nx IHn|k st ch IHc nx IHn]; intros cur G; cbn [sgood everywhere] in *; auto.
  - apply IHn, G.
  - destruct G as ((k & -> & Lk & F) & _ & G1 & G2). split; [|auto]. exists k. split; auto.
    destruct (nth_error ms k) as [h|] eqn:Eh; [|apply nth_error_None in Eh; lia]. destruct (sn_ms _ _ _ _ _ _ N k h Eh) as [O _].
    pose proof (sn_good _ _ _ _ _ _ N) as (_ & Ga & _). destruct (gd_reach _ _ _ _ _ _ Ga) as (l0 & Re & _).
    destruct (sn_data _ _ _ _ _ _ N k Lk) as (m & Hm & Hd).
    exists h. eexists. split; auto. split. { rewrite (static_data_lists_created_styles e page l0 _ _ _ _ Re O Hm Hd). reflexivity. }
    pose proof (good_cored _ _ _ _ _ _ Ga) as Co. destruct (state_covers e sm _ k m Co (sn_tidy _ _ _ _ _ _ N k Lk) Hm) as [_ Cv].
    unfold served. eapply Forall2_weaken; [|exact F]. intros x cl (m' & cid & c & Hm' & R & Hc & ->). rewrite Hm in Hm'. injection Hm' as <-.
    destruct (Cv _ _ R) as (r & c' & Ir & Ek & Hc' & Ei & Et). rewrite Hc in Hc'. injection Hc' as <-.
    exists r. split; [exact Ir|]. split; [now rewrite Ei|].
    destruct Co as [ids0 Co]. pose proof R as (mx & Hmx & J). destruct (o_reg _ _ _ _ Co _ _ Hmx) as (_ & _ & K). destruct (K _ _ J) as (c2 & Hc2 & Kk & Km).
    rewrite Hc in Hc2. injection Hc2 as <-. destruct (o_content _ _ _ _ Co _ _ Hc) as [_ Tx].
    destruct (sn_tidy _ _ _ _ _ _ N k Lk cid c Hc Km) as [Hy _]. unfold text_of, style_text in Tx. rewrite Kk, Hy in Tx. cbn in Tx. now rewrite Et, Ei, Tx.
  - apply IHn, G.
  - destruct G as (_ & _ & G1 & G2). auto.
  - destruct G as (_ & _ & _ & G1 & G2). auto.
Qed.

(** The data read from the managers, at any time, has the styles of all classes that components
    below their providers got so far, with their text. *)
Theorem tree_styles_served : forall y e page l p ms sm v schedule p1 l1,
  crun y e (prog_start page) l = Some p ->
  managers_are p ms sm -> well_formed (List.length ms) false v ->
  (forall k, k < List.length ms -> new_collector (a_world (p_app p)) (sm k)) ->
  lrun y e true ms None schedule (begin v) p = LNext p1 l1 ->
  everywhere (fun k b cls => exists h d, nth_error ms k = Some h
     /\ snd (Manager.step e (a_world (p_app p1)) (ORead h)) = RData d /\ served d b cls) None l1.
Proof.
  intros y e page l p ms sm v sch p1 l1 H M W Nc R. apply pgood_creached in H.
  pose proof (sstate_begin e page _ ms sm p v H M W Nc) as S. pose proof (sstate_run _ _ _ _ _ _ _ _ _ _ _ S R) as S1.
  eapply sgood_served; [apply S1|apply S1].
Qed.
Print Assumptions tree_styles_served.

(** ** The browser *)

Lemma shown_classes s : forall c, agrees s c -> finished s = true -> all_shown c = true -> classes_of c = classes_of s.
Proof.
  induction s as [|b ch nx IHn|b cls ch IHc nx IHn|k d ch nx IHn|k v ch IHc nx IHn|k st ch IHc nx IHn]; intros c A F S; try discriminate F;
    destruct c; cbn [agrees finished all_shown classes_of] in *; try contradiction; try discriminate; auto; apply andb_prop in F, S; destruct F, S.
  - destruct A as (-> & -> & A1 & A2). f_equal. f_equal; auto.
  - destruct A as (-> & A1 & A2). f_equal; auto.
Qed.

Lemma server_prefix y e page ids ms sm : forall sch p l p1 l1 mi m, sstate e page ids ms sm p l ->
  lrun y e true ms None sch l p = LNext p1 l1 -> nth_error (w_mgrs (a_world (p_app p))) mi = Some m ->
  exists m1, nth_error (w_mgrs (a_world (p_app p1))) mi = Some m1 /\ m_prefix m1 = m_prefix m.
Proof.
  induction sch as [|path sch IH]; intros p l p1 l1 mi m S R A; cbn [lrun] in R; [injection R as <- <-; eauto|].
  destruct (lstep y e true ms None path l p) as [p2 l2| |] eqn:E; [|discriminate|eauto].
  pose proof (sstate_step _ _ _ _ _ _ _ _ _ _ _ S E) as S2.
  destruct S as [N G Nd Fr Lv]. destruct (sstep _ _ _ _ _ _ _ None None _ _ _ _ N Logic.I G Nd Fr E) as (t & f & _ & _ & _ & _ & A5 & _).
  destruct (steps_like _ _ _ _ _ (calm_steps any_global _ _ _ A5) A) as (m2 & A2 & Ep & _).
  destruct (IH _ _ _ _ _ _ S2 R A2) as (m1 & A1 & E1). exists m1. split; auto. congruence.
Qed.

(** The server has finished.  The browser, with managers of the same prefixes, none of them used
    yet, hydrates what came from the server, in whatever order: it does not panic, every component
    gets the classes it has on the server, the document and the random numbers are left alone; and
    it can go on until all is shown. *)
Theorem tree_hydrates :
  forall ys es pages ls p ms sm v schedule p1 served_tree yc ec pagec lc p' ms' cm schedule',
  (* the server *)
  crun ys es (prog_start pages) ls = Some p ->
  managers_are p ms sm -> well_formed (List.length ms) false v ->
  (forall k, k < List.length ms -> new_collector (a_world (p_app p)) (sm k)) ->
  lrun ys es true ms None schedule (begin v) p = LNext p1 served_tree -> finished served_tree = true ->
  (* the browser *)
  crun yc ec (prog_start pagec) lc = Some p' ->
  managers_are p' ms' cm -> List.length ms' = List.length ms ->
  (forall k, k < List.length ms -> empty_manager (a_world (p_app p')) (cm k)
     /\ same_prefix (a_world (p_app p)) (sm k) (a_world (p_app p')) (cm k)) ->
  (forall k k', k < List.length ms -> k' < List.length ms -> cm k = cm k' -> sm k = sm k') ->
  exists p2 shown, lrun yc ec false ms' None schedule' (begin (sent served_tree)) p' = LNext p2 shown
    /\ agrees served_tree shown
    /\ w_dom (a_world (p_app p2)) = w_dom (a_world (p_app p'))
    /\ w_draws (a_world (p_app p2)) = w_draws (a_world (p_app p'))
    /\ (all_shown shown = true -> classes_of shown = classes_of served_tree)
    /\ exists more p3 shown', lrun yc ec false ms' None more shown p2 = LNext p3 shown' /\ all_shown shown' = true.
Proof.
  intros ys es pages ls p ms sm v sch p1 s yc ec pagec lc p' ms' cm sch' H M W Nc R F H' M' Ln Em Sm.
  apply pgood_creached in H. apply pgood_creached in H'.
  pose proof (sstate_begin es pages _ ms sm p v H M W Nc) as S. pose proof (sstate_run _ _ _ _ _ _ _ _ _ _ _ S R) as S1.
  pose proof (sn_good _ _ _ _ _ _ (ss_node _ _ _ _ _ _ _ S1)) as (_ & Ga & _). pose proof (good_cored _ _ _ _ _ _ Ga) as Co.
  set (W1 := a_world (p_app p1)) in *.
  assert (Sf : forall k, k < List.length ms -> same_prefix W1 (sm k) (a_world (p_app p')) (cm k)).
  { intros k L. destruct (Em k L) as (_ & m & m' & A & B & E).
    destruct (server_prefix _ _ _ _ _ _ _ _ _ _ _ _ _ S R A) as (m1 & A1 & Ep). exists m1, m'. split; auto. split; auto. congruence. }
  assert (N : cnode W1 ms ms' sm cm ec pagec p').
  { split; eauto.
    - intros k h E. apply (proj2 M' k h E).
    - intros k key cid c L (m & Hm & J) _. destruct (Em k L) as ((m' & Hm' & Er) & _). rewrite Hm in Hm'. injection Hm' as <-. rewrite Er in J. destruct J. }
  pose proof (ss_good _ _ _ _ _ _ _ S1) as Sg.
  assert (G : cgood cm (a_world (p_app p')) None s (begin (sent s))) by (eapply cgood_begin; eauto).
  destruct (crun_tree es W1 ms ms' sm cm Co Ln Sm yc ec pagec s Sg F sch' (begin (sent s)) p' N G) as (p2 & c & R2 & N2 & G2 & D1 & D2).
  pose proof (cgood_agrees _ _ _ _ _ G2) as Ag.
  exists p2, c. split; auto. split; auto. split; auto. split; auto. split; [intros A; eapply shown_classes; eauto|].
  eapply client_finishes; eauto.
Qed.
Print Assumptions tree_hydrates.

(** ** An application *)

(** Two providers, one in the other; a component with a child, and one below the inner provider
    that asks for the same CSS as the child. *)
Definition badge : list bop := [BCss None (PropsManager.demo_sheet "blue"); BClasses 0].
Definition panel : list bop :=
  [BCss (Some (lit "Panel-panel_rs-9")) (PropsManager.demo_sheet "red"); BCss None (PropsManager.demo_sheet "blue"); BClasses 1; BClasses 0].
Definition site : view :=
  VProv 0 None (VComp panel (VComp badge VEnd VEnd) (VProv 1 None (VComp badge VEnd VEnd) VEnd)) VEnd.
Definition site_env : env := mk_env false false None false counter_entropy.
Definition site_ops : list cop :=
  map (fun o => CDo (PApp (AOp o))) [OBuild (lit "app") None true true; OBuild (lit "side") None true true].
Definition site_prog : prog := match crun shop_yew site_env (prog_start []) site_ops with Some p => p | None => prog_start [] end.
Lemma site_run : crun shop_yew site_env (prog_start []) site_ops = Some site_prog.
Proof. vm_compute. reflexivity. Qed.
Lemma two (P : nat -> Prop) : P 0 -> P 1 -> forall k, k < 2 -> P k.
Proof. intros A B [|[|k]] L; auto. lia. Qed.
Lemma site_managers : managers_are site_prog [0; 1] (fun k => k).
Proof.
  split; [repeat constructor; cbn; intuition lia|]. intros [|[|k]] h E; cbn in E.
  - injection E as <-. split; [vm_compute; reflexivity|]. vm_compute. tauto.
  - injection E as <-. split; [vm_compute; reflexivity|]. vm_compute. tauto.
  - destruct k; discriminate.
Qed.
Lemma site_well_formed : well_formed 2 false site.
Proof. cbn. auto 20. Qed.
Lemma site_collects : forall k, k < 2 -> new_collector (a_world (p_app site_prog)) k.
Proof.
  apply two; (split; [eexists; split; [vm_compute; reflexivity|discriminate]|]);
    (intros [|cid] c H; vm_compute in H; discriminate).
Qed.
(** The inner provider is rendered before the component beside it. *)
Definition site_schedule : list (list bool) :=
  [[]; [true; false]; [true; false; true]; [true]; [true; true]; [true; false]; []].
Definition site_result := lrun shop_yew site_env true [0; 1] None site_schedule (begin site) site_prog.
Definition site_served : live := match site_result with LNext _ l => l | _ => LEnd end.
Definition site_after : prog := match site_result with LNext p _ => p | _ => site_prog end.
Lemma site_renders : lrun shop_yew site_env true [0; 1] None site_schedule (begin site) site_prog = LNext site_after site_served.
Proof. vm_compute. reflexivity. Qed.
Lemma site_finished : finished site_served = true.
Proof. vm_compute. reflexivity. Qed.
Definition site_classes : list (list (list str)) :=
  [[[lit "app-style-1"]; [lit "app-style-2"; lit "Panel-panel_rs-9"]]; [[lit "app-style-1"]]; [[lit "side-style-0"]]].
Lemma site_classes_are : classes_of site_served = site_classes.
Proof. vm_compute. reflexivity. Qed.

Lemma site_served_is : exists st c1 c2 st', site_served =
  LProvDone 0 st (LComp panel c1 (LComp badge c2 LEnd LEnd) (LProvDone 1 st' (LComp badge [[lit "side-style-0"]] LEnd LEnd) LEnd)) LEnd.
Proof. do 4 eexists. vm_compute. reflexivity. Qed.

Example tree_serves_ex : forall schedule, exists p1 l1, lrun shop_yew site_env true [0; 1] None schedule (begin site) site_prog = LNext p1 l1
  /\ exists more p2 l2, lrun shop_yew site_env true [0; 1] None more l1 p1 = LNext p2 l2 /\ finished l2 = true.
Proof.
  intros sch. apply (tree_serves shop_yew site_env [] site_ops site_prog [0; 1] (fun k => k) site sch site_run site_managers site_well_formed site_collects).
  intros k m x _ _ _ D. discriminate.
Qed.

(** The style of the component below the inner provider is in the data of the inner manager. *)
Example tree_styles_served_ex : exists d, snd (Manager.step site_env (a_world (p_app site_after)) (ORead 1)) = RData d
  /\ served d badge [[lit "side-style-0"]] /\ List.length d = 1.
Proof.
  pose proof (tree_styles_served shop_yew site_env [] site_ops site_prog [0; 1] (fun k => k) site site_schedule site_after site_served
    site_run site_managers site_well_formed site_collects site_renders) as T.
  destruct site_served_is as (st & c1 & c2 & st' & Es). rewrite Es in T. cbn [everywhere] in T. destruct T as ((_ & _ & ((k & E & h & d & H1 & H2 & H3) & _) & _) & _).
  injection E as <-. injection H1 as <-. exists d. split; auto. split; [exact H3|].
  assert (Q : match snd (Manager.step site_env (a_world (p_app site_after)) (ORead 1)) with RData d => List.length d | _ => 0 end = 1) by (vm_compute; reflexivity).
  now rewrite H2 in Q.
Qed.

(** The browser, which draws other numbers, and goes through the page from the outside. *)
Definition client_ops : list cop :=
  map (fun o => CDo (PApp (AOp o))) [OBuild (lit "side") (Some 0) true false; OBuild (lit "app") (Some 0) true false].
Definition client_prog : prog := match crun shop_yew demo_env (prog_start demo_page) client_ops with Some p => p | None => prog_start [] end.
Lemma client_run : crun shop_yew demo_env (prog_start demo_page) client_ops = Some client_prog.
Proof. vm_compute. reflexivity. Qed.
Definition client_managers (k : nat) : nat := 1 - k.
Lemma client_managers_are : managers_are client_prog [1; 0] client_managers.
Proof.
  split; [repeat constructor; cbn; intuition lia|]. intros [|[|k]] h E; cbn in E.
  - injection E as <-. split; [vm_compute; reflexivity|]. vm_compute. tauto.
  - injection E as <-. split; [vm_compute; reflexivity|]. vm_compute. tauto.
  - destruct k; discriminate.
Qed.
Lemma client_empty : forall k, k < 2 -> empty_manager (a_world (p_app client_prog)) (client_managers k)
  /\ same_prefix (a_world (p_app site_prog)) k (a_world (p_app client_prog)) (client_managers k).
Proof.
  apply two; (split; [eexists; split; vm_compute; reflexivity|]);
    (eexists; eexists; split; [vm_compute; reflexivity|split; [vm_compute; reflexivity|vm_compute; reflexivity]]).
Qed.
Definition client_schedule : list (list bool) := [[]; [true]; [true; true]; [true; false]; [true; false; true]].

Lemma tree_hydrates_any schedule' :
  exists p2 shown, lrun shop_yew demo_env false [1; 0] None schedule' (begin (sent site_served)) client_prog = LNext p2 shown
    /\ agrees site_served shown
    /\ w_dom (a_world (p_app p2)) = w_dom (a_world (p_app client_prog))
    /\ w_draws (a_world (p_app p2)) = w_draws (a_world (p_app client_prog))
    /\ (all_shown shown = true -> classes_of shown = classes_of site_served)
    /\ exists more p3 shown', lrun shop_yew demo_env false [1; 0] None more shown p2 = LNext p3 shown' /\ all_shown shown' = true.
Proof.
  apply (tree_hydrates shop_yew site_env [] site_ops site_prog [0; 1] (fun k => k) site site_schedule site_after site_served
    shop_yew demo_env demo_page client_ops client_prog [1; 0] client_managers schedule'
    site_run site_managers site_well_formed site_collects site_renders site_finished client_run client_managers_are eq_refl client_empty).
  unfold client_managers. cbn [List.length]. intros k k' L L'. lia.
Qed.
Example tree_hydrates_ex : exists p2 shown,
  lrun shop_yew demo_env false [1; 0] None client_schedule (begin (sent site_served)) client_prog = LNext p2 shown
  /\ classes_of shown = site_classes /\ w_dom (a_world (p_app p2)) = demo_page.
Proof.
  destruct (tree_hydrates_any client_schedule) as (p2 & shown & R & _ & D & _ & A & _). exists p2, shown. split; auto. split.
  - rewrite <- site_classes_are. apply A. assert (Q : match lrun shop_yew demo_env false [1; 0] None client_schedule (begin (sent site_served)) client_prog with
      LNext _ l => all_shown l | _ => false end = true) by (vm_compute; reflexivity). now rewrite R in Q.
  - rewrite D. vm_compute. reflexivity.
Qed.
