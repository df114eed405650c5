(** * PropsHooks: components and hooks (C47-C49, C56-C58). *)

From Coq Require Import String Ascii List NArith Bool Arith Lia Permutation.
From Verif Require Import Str StrFacts Ast Render CssParser Ids IdFacts Manager SpecManager
  ManagerFacts ManagerInv ManagerSteps ManagerCore ManagerProps Hydrate Hooks SpecHooks
  HookFacts HookOnly HookKeep PropsManager.
Import ListNotations.
Local Open Scope list_scope.
Local Opaque parse to_style_str.

(** ** C47: the life of a [Global] *)

Lemma in_guards a i g : nth_error (a_globals a) i = Some (Some g) -> In g (guards a).
Proof. intros H. apply nth_error_In in H. apply in_flat_map. exists (Some g). split; auto. now left. Qed.
Lemma guards_in a g : In g (guards a) -> exists i, nth_error (a_globals a) i = Some (Some g).
Proof.
  intros H. apply in_flat_map in H. destruct H as ([g'|] & I & H); [|contradiction]. destruct H as [<-|[]].
  now apply In_nth_error in I.
Qed.
Lemma guard_carried e page ids a i g :
  app_good e page ids a -> nth_error (a_globals a) i = Some (Some g) ->
  guard_ok (a_world a) g /\ exists mi, carried a i = Some (mi, s_sheet (g_source g))
    /\ handle_of (w_mhandles (a_world a)) (g_manager g) = Some mi.
Proof.
  intros G H. pose proof (gd_guards _ _ _ _ _ _ G) as F. rewrite Forall_forall in F. pose proof (F _ (in_guards _ _ _ H)) as K.
  split; auto. destruct K as (mi & _ & _ & _ & Hm & _). exists mi. unfold carried. now rewrite H, Hm.
Qed.

Lemma carried_same e page ids ids' a a' i :
  app_good e page ids a -> app_good e page ids' a' ->
  passes (w_mhandles (a_world a)) (w_mhandles (a_world a')) ->
  nth_error (a_globals a') i = nth_error (a_globals a) i -> carried a' i = carried a i.
Proof.
  intros G G' P E. destruct (nth_error (a_globals a) i) as [[g|]|] eqn:H.
  - destruct (guard_carried _ _ _ _ _ _ G H) as (_ & mi & C & Hm).
    destruct (guard_carried _ _ _ _ _ _ G' E) as (_ & mi' & C' & Hm').
    rewrite C, C'. do 2 f_equal. eapply passes_same; eauto.
  - unfold carried. now rewrite H, E.
  - unfold carried. now rewrite H, E.
Qed.
Lemma passes_astep y e page ids a o a' :
  app_good e page ids a -> astep y e a o = Some a' -> passes (w_mhandles (a_world a)) (w_mhandles (a_world a')).
Proof.
  intros G H. destruct (unregisters o) eqn:U.
  - destruct o as [o| | | | |]; try discriminate. cbn [astep] in H.
    destruct (free _ (op_style o) && free _ (op_mhandle o)); [|discriminate].
    pose proof (passes_step e (a_world a) o) as P.
    destruct (step e (a_world a) o) as [w [ | | | | | ]]; try discriminate; now injection H as <-.
  - destruct (steps_astep _ _ _ _ _ _ _ G H U) as [S _]. eapply passes_steps; eauto.
Qed.

Lemma carries_good y e page ids a o a' i :
  app_good e page ids a -> astep y e a o = Some a' ->
  match o with
  | AMount ctx src =>
      if Nat.eqb i (List.length (a_globals a))
      then exists mi, context_is a a' ctx mi /\ carried a' i = Some (mi, s_sheet src)
      else carried a' i = carried a i
  | ARender j ctx src =>
      if Nat.eqb i j
      then exists mi, context_is a a' ctx mi /\ carried a' i = Some (mi, s_sheet src)
      else carried a' i = carried a i
  | AUnmount j => if Nat.eqb i j then carried a' i = None else carried a' i = carried a i
  | AOp _ | AClasses _ | AUseStyle _ _ => carried a' i = carried a i
  end.
Proof.
  intros R H.
  pose proof (good_astep _ _ _ _ _ _ _ R H) as R'. pose proof (passes_astep _ _ _ _ _ _ _ R H) as P.
  assert (Same : nth_error (a_globals a') i = nth_error (a_globals a) i -> carried a' i = carried a i)
    by (eapply carried_same; eauto).
  destruct o as [o|ctx src|j ctx src|j|src|ctx src]; cbn [astep] in H.
  - apply Same. destruct (free _ (op_style o) && free _ (op_mhandle o)); [|discriminate].
    destruct (step e (a_world a) o) as [w [ | | | | | ]]; try discriminate; now injection H as <-.
  - destruct (render_global y e None ctx src a) as [[a1 g]|] eqn:Rg; [|discriminate]. injection H as <-.
    destruct (good_render y e page _ None ctx src a a1 g (guards a) R (Permutation_refl _) Rg) as [_ Eg].
    destruct (steps_render y e page _ None ctx src a a1 g (guards a) R (Permutation_refl _) Rg) as (_ & _ & Es & mi & C & Hg).
    cbn [a_globals with_globals] in *. rewrite Eg in *. destruct (Nat.eqb_spec i (List.length (a_globals a))) as [->|N].
    + exists mi. split; [exact C|]. unfold carried. cbn [a_globals with_globals a_world]. rewrite nth_app_new, Hg. now rewrite Es.
    + apply Same. destruct (nth_error (a_globals a) i) eqn:E; [now apply nth_app_old|].
      apply nth_error_None in E. apply nth_error_None. rewrite app_length. cbn. lia.
  - destruct (nth_error (a_globals a) j) as [[g0|]|] eqn:E; try discriminate.
    destruct (render_global y e (Some g0) ctx src a) as [[a1 g]|] eqn:Rg; [|discriminate]. injection H as <-.
    destruct (guards_upd _ _ _ (Some g) E) as (gs & P1 & P2).
    destruct (good_render y e page _ (Some g0) ctx src a a1 g gs R P1 Rg) as [_ Eg].
    destruct (steps_render y e page _ (Some g0) ctx src a a1 g gs R P1 Rg) as (_ & _ & Es & mi & C & Hg).
    cbn [a_globals with_globals] in *. rewrite Eg in *. destruct (Nat.eqb_spec i j) as [->|N].
    + exists mi. split; [exact C|]. unfold carried. cbn [a_globals with_globals a_world].
      rewrite nth_upd, Nat.eqb_refl, E. cbn [option_map]. now rewrite Hg, Es.
    + apply Same. apply nth_upd_ne. auto.
  - destruct (nth_error (a_globals a) j) as [[g0|]|] eqn:E; try discriminate. injection H as <-.
    cbn [a_globals with_globals] in *. destruct (Nat.eqb_spec i j) as [->|N].
    + unfold carried. cbn [a_globals with_globals]. now rewrite nth_upd, Nat.eqb_refl, E.
    + apply Same. apply nth_upd_ne. auto.
  - apply Same. destruct (user_source a src) eqn:U; [|discriminate].
    destruct (into_classes e src a) as [[a1 cl]|] eqn:E; [|discriminate]. injection H as <-. cbn [fst].
    destruct (good_classes _ _ _ _ _ _ _ R U E) as [_ ->]. reflexivity.
  - apply Same. destruct (user_source a src) eqn:U; [|discriminate].
    destruct (use_style e ctx src a) as [[a1 x]|] eqn:E; [|discriminate]. injection H as <-. cbn [fst].
    destruct (good_use_style _ _ _ _ _ _ _ _ R U E) as [_ ->]. reflexivity.
Qed.

(** What a component carries: from a rendering on, the CSS it was rendered with, in the manager
    of its context then; until it is unmounted, whatever else happens. *)
Theorem global_carries : forall y e page l a o a' i,
  arun y e (app_start page) l = Some a -> astep y e a o = Some a' ->
  match o with
  | AMount ctx src =>
      if Nat.eqb i (List.length (a_globals a))
      then exists mi, context_is a a' ctx mi /\ carried a' i = Some (mi, s_sheet src)
      else carried a' i = carried a i
  | ARender j ctx src =>
      if Nat.eqb i j
      then exists mi, context_is a a' ctx mi /\ carried a' i = Some (mi, s_sheet src)
      else carried a' i = carried a i
  | AUnmount j => if Nat.eqb i j then carried a' i = None else carried a' i = carried a i
  | AOp _ | AClasses _ | AUseStyle _ _ => carried a' i = carried a i
  end.
Proof. intros y e page l a o a' i R H. apply good_reached in R. eapply carries_good; eauto. Qed.
Print Assumptions global_carries.

Lemma loads_nothing_ids l : loads_nothing l -> aloaded l = [].
Proof.
  intros N. unfold aloaded. induction l as [|o l IH]; auto. cbn [flat_map]. rewrite IH by (intros h d I; apply (N h d); now right).
  destruct o as [o| | | | |]; auto. destruct o; auto. elim (N h d). now left.
Qed.
Lemma globals_only_loads l : forallb globals_only l = true -> loads_nothing l.
Proof. intros F h d I. rewrite forallb_forall in F. apply F in I. discriminate. Qed.
Lemma ids_no_clash e page l n : loaded_ids l = [] -> ids_apart e page n -> no_clash e page l n.
Proof. intros E [A B]. split; [exact A|]. split; [exact B|]. rewrite E. intros id []. Qed.

Lemma present_good e page a i mi m s k :
  app_good e page [] a ->
  ids_apart e page (w_draws (a_world a)) -> (forall n, forallb ident_char (e_draw e n) = true) ->
  e_wasm e = true -> e_document e = true ->
  carried a i = Some (mi, s) -> nth_error (w_mgrs (a_world a)) mi = Some m ->
  m_data m = None -> m_container m = Some k -> in_document page k -> plain_ident (m_prefix m) = true ->
  exists id n, texts_of id (w_dom (a_world a)) = [to_style_str None s]
    /\ n < w_draws (a_world a) /\ id = new_id true (m_prefix m) (e_draw e n) /\ ~ In id (page_ids page).
Proof.
  intros R Ap Pl W D C Hm Hd Hk Hi Hp.
  assert (Hg : exists g, nth_error (a_globals a) i = Some (Some g) /\ s_sheet (g_source g) = s
               /\ handle_of (w_mhandles (a_world a)) (g_manager g) = Some mi).
  { unfold carried in C. destruct (nth_error (a_globals a) i) as [[g|]|]; try discriminate. exists g.
    destruct (handle_of _ (g_manager g)) as [mj|]; [|discriminate]. injection C as -> <-. auto. }
  destruct Hg as (g & Hg & Es & Eh). destruct (guard_carried _ _ _ _ _ _ R Hg) as ((mj & m' & cid & c & H1 & H2 & H3 & H4 & H5 & H6) & _).
  rewrite Eh in H1. injection H1 as <-. rewrite Hm in H2. injection H2 as <-. rewrite Es in H5.
  pose proof (good_core _ _ _ _ _ _ R) as Co. destruct (gd_reach _ _ _ _ _ _ R) as (l0 & Re & El).
  pose proof (o_origin _ _ _ _ Co _ _ H4) as Or. destruct (c_hydrated c) eqn:Hy; [contradiction|].
  destruct Or as (n & Ln & Id). unfold made_id in Id. rewrite H5 in Id. cbn [k_global k_prefix global_key] in Id.
  destruct (o_content _ _ _ _ Co _ _ H4) as [_ Tx]. unfold text_of, style_text in Tx. rewrite H5, Hy in Tx. cbn in Tx.
  exists (c_id c), n. split; [|split; [exact Ln|split; [exact Id|]]].
  - rewrite <- Tx. eapply in_document_exactly_while_alive; eauto.
    + now apply ids_no_clash.
    + split; [exact Hy|]. exists m. now rewrite H6.
    + rewrite Id. apply plain_prefix_plain_id; auto.
    + left. exists (g_style g). exact H3.
  - intros I. destruct Ap as [_ Ap]. rewrite Id in I. apply (Ap _ I n Ln (m_prefix m ++ lit "-global")).
    unfold new_id, new_global. change (lit "-global-") with (lit "-global" ++ lit "-"). now rewrite <- !app_assoc.
Qed.

(** Presence.  While a [Global] carries CSS for a manager that mounts into the document, the
    document has, under an id that is not the page's, one element, with that CSS. *)
Theorem global_css_present : forall y e page l a i mi m s k,
  arun y e (app_start page) l = Some a -> loads_nothing l ->
  ids_apart e page (w_draws (a_world a)) -> (forall n, forallb ident_char (e_draw e n) = true) ->
  e_wasm e = true -> e_document e = true ->
  carried a i = Some (mi, s) -> nth_error (w_mgrs (a_world a)) mi = Some m ->
  m_data m = None -> m_container m = Some k -> in_document page k -> plain_ident (m_prefix m) = true ->
  exists id n, texts_of id (w_dom (a_world a)) = [to_style_str None s]
    /\ n < w_draws (a_world a) /\ id = new_id true (m_prefix m) (e_draw e n) /\ ~ In id (page_ids page).
Proof.
  intros y e page l a i mi m s k R NL. apply good_reached in R. rewrite (loads_nothing_ids _ NL) in R. now apply present_good.
Qed.
Print Assumptions global_css_present.

(** Absence.  If user code makes no global styles of its own, each style element of the document
    is the page's, or has the CSS that a mounted [Global] carries, or is a scoped style. *)
Theorem global_css_gone : forall y e page l a id t,
  arun y e (app_start page) l = Some a -> forallb globals_only l = true ->
  ids_apart e page (w_draws (a_world a)) -> e_document e = true -> plain_ident id = true ->
  In t (texts_of id (w_dom (a_world a))) ->
  In id (page_ids page)
  \/ (exists i mi s, carried a i = Some (mi, s) /\ t = to_style_str None s)
  \/ (exists cid c, nth_error (w_contents (a_world a)) cid = Some c /\ alive (a_world a) cid
        /\ k_global (c_key c) = false /\ c_id c = id /\ t = to_style_str (Some id) (k_ast (c_key c))).
Proof.
  intros y e page l a id t R GO Ap D P I. pose proof (only_reached _ _ _ _ _ GO R) as [O1 O2]. apply good_reached in R.
  rewrite (loads_nothing_ids _ (globals_only_loads _ GO)) in R.
  pose proof (good_core _ _ _ _ _ _ R) as Co. destruct (gd_reach _ _ _ _ _ _ R) as (l0 & Re & El).
  destruct (no_other_elements _ _ _ _ _ _ Re (ids_no_clash _ _ _ _ El Ap) D P I) as [K|(cid & c & k & Hc & Al & Ei & Et & (Hy & _) & _)]; [now left|right].
  destruct (o_content _ _ _ _ Co _ _ Hc) as [_ Tx]. unfold text_of, style_text in Tx. rewrite Hy in Tx.
  destruct (k_global (c_key c)) eqn:Kg; cbn in Tx.
  - left. assert (Hg : exists g, In g (guards a) /\ handle_of (w_handles (a_world a)) (g_style g) = Some cid).
    { destruct Al as [[h Hh]|(mi & key & Hr)].
      - destruct (O1 _ _ Hh) as [J|(c' & Hc' & N)]; [|congruence]. apply in_map_iff in J. destruct J as (g & <- & J). eauto.
      - apply (O2 _ _ _ Hr). destruct Hr as (m & Hm & J). destruct (o_reg _ _ _ _ Co _ _ Hm) as (_ & _ & Q).
        destruct (Q _ _ J) as (c' & Hc' & <- & _). congruence. }
    destruct Hg as (g & Ig & Hh). apply guards_in in Ig. destruct Ig as [i Hi].
    destruct (guard_carried _ _ _ _ _ _ R Hi) as ((mj & m' & cid' & c' & H1 & H2 & H3 & H4 & H5 & H6) & mi & C & _).
    rewrite Hh in H3. injection H3 as <-. rewrite Hc in H4. injection H4 as <-.
    exists i, mi, (s_sheet (g_source g)). split; auto. rewrite <- Et, Tx, H5. reflexivity.
  - right. exists cid, c. rewrite <- Et, <- Ei. auto.
Qed.
Print Assumptions global_css_gone.

(** A program: two managers (one the default one), three components, a change of CSS, an
    unmounting; user code makes a scoped style.  Whatever yew's order of drops. *)
Definition demo_source (v : string) : source := from_sheet None (demo_sheet v).
Definition demo_app_ops : list aop :=
  [ AOp (OBuild (lit "app") (Some 1) true false);
    AMount (Some 0) (demo_source "red");
    AMount None (demo_source "blue");
    AMount (Some 0) (demo_source "red");
    AOp (OCreate 0 (style_key (lit "app") (demo_sheet "red")));
    ARender 1 None (demo_source "green");
    AUnmount 0 ].

Example global_css_ex : forall y, exists a,
  arun y demo_env (app_start demo_page) demo_app_ops = Some a
  /\ forallb globals_only demo_app_ops = true
  /\ carried a 0 = None
  /\ carried a 1 = Some (1, demo_sheet "green")
  /\ carried a 2 = Some (0, demo_sheet "red")
  /\ map n_children (w_dom (a_world a))
     = [ [EOther; EStyle (lit "srv-1") (lit ".srv-1 {}");
          EStyle (lit "stylist-global-style-3") (to_style_str None (demo_sheet "green"))];
         [EStyle (lit "app-global-style-0") (to_style_str None (demo_sheet "red"));
          EStyle (lit "app-style-2") (to_style_str (Some (lit "app-style-2")) (demo_sheet "red"))] ].
Proof. intros [[|] [|]]; eexists; (split; [vm_compute; reflexivity|]); now vm_compute. Qed.

Lemma demo_ids_apart n : (N.of_nat n <= 2 ^ 64)%N -> ids_apart demo_env demo_page n.
Proof.
  intros L. assert (A : no_clash demo_env demo_page [] n).
  { apply counter_no_clash; auto. intros id [I|I] p m; [|contradiction]. cbn in I. destruct I as [<-|[]].
    intros E. apply (f_equal (fun l => existsb (char_eqb (ch "t")) l)) in E. rewrite !existsb_app in E.
    replace (existsb (char_eqb (ch "t")) (lit "-style-")) with true in E by reflexivity.
    rewrite orb_true_r in E. vm_compute in E. discriminate. }
  destruct A as (A & B & _). now split.
Qed.
Example global_css_hypotheses_ex : forall y a,
  arun y demo_env (app_start demo_page) demo_app_ops = Some a ->
  loads_nothing demo_app_ops /\ ids_apart demo_env demo_page (w_draws (a_world a))
  /\ (forall n, forallb ident_char (e_draw demo_env n) = true) /\ in_document demo_page 1
  /\ exists m, nth_error (w_mgrs (a_world a)) 0 = Some m /\ m_data m = None /\ m_container m = Some 1
       /\ plain_ident (m_prefix m) = true.
Proof.
  intros y a R. split; [now apply globals_only_loads|]. split; [|split; [apply entropy_is_plain|split]].
  - apply demo_ids_apart. destruct y as [[|] [|]]; vm_compute in R; injection R as <-; now vm_compute.
  - eexists. now split.
  - destruct y as [[|] [|]]; vm_compute in R; injection R as <-; eexists; (split; [reflexivity|]); now vm_compute.
Qed.

(** ** C56: one copy *)

(** A second and a third component with the CSS of a first one, which was unmounted between
    them: the document has the CSS twice. *)
Theorem global_one_copy_refuted : exists page e l s, forall y, exists a,
  arun y e (app_start page) l = Some a
  /\ carried a 1 = Some (0, s) /\ carried a 2 = Some (0, s)
  /\ copies (to_style_str None s) (w_dom (a_world a)) = 2.
Proof.
  exists demo_page, demo_env,
    [AMount None (demo_source "red"); AMount None (demo_source "red"); AUnmount 0; AMount None (demo_source "red")],
    (demo_sheet "red").
  intros [[|] [|]]; eexists; (split; [vm_compute; reflexivity|]); now vm_compute.
Qed.
Print Assumptions global_one_copy_refuted.

(** ** C57: the manager of a source given to [Global] *)

(** The manager attached to the source is not asked: the style goes to the manager of the
    context. *)
Theorem global_in_source_manager_refuted : exists page e l src mi, forall y, exists a,
  arun y e (app_start page) (l ++ [AMount (Some 0) src]) = Some a
  /\ option_map (handle_of (w_mhandles (a_world a))) (s_manager src) = Some (Some mi)
  /\ carried a 0 = Some (0, s_sheet src) /\ mi <> 0
  /\ (forall k cid, ~ registered (a_world a) mi k cid).
Proof.
  exists demo_page, demo_env,
    [AOp (OBuild (lit "app") (Some 1) true false); AOp (OBuild (lit "mine") (Some 1) true false)],
    (mk_source (demo_sheet "red") (Some 1) None), 1.
  intros [[|] [|]]; eexists; (split; [vm_compute; reflexivity|]); (split; [now vm_compute|]);
    (split; [now vm_compute|]); (split; [discriminate|]); intros k cid (m & Hm & I); cbn in Hm; injection Hm as <-; contradiction.
Qed.
Print Assumptions global_in_source_manager_refuted.

(** ** C58: [Global] on the server *)

(** A server destroys a component once it is rendered; a second component with the same CSS is
    then recorded again, under the same key with another id, and the client cannot load that. *)
Theorem global_server_data_loads_refuted : exists e e' page prefix s, forall y, exists a d,
  arun y e (app_start [])
    [AOp (OBuild prefix None true true);
     AMount (Some 0) (from_sheet None s); AUnmount 0;
     AMount (Some 0) (from_sheet None s); AUnmount 1] = Some a
  /\ snd (step e (a_world a) (ORead 0)) = RData d
  /\ snd (run e' (start page) [OBuild prefix None true false; OLoad 0 d]) = [RHandle 0; RPanic].
Proof.
  exists (mk_env false false None false counter_entropy), demo_env, demo_page, (lit "stylist"), (demo_sheet "red").
  intros [[|] [|]]; do 2 eexists; (split; [vm_compute; reflexivity|]); split; [reflexivity| |reflexivity| |reflexivity| |reflexivity|];
    now vm_compute.
Qed.
Print Assumptions global_server_data_loads_refuted.

(** ** C49: classes of sources *)

Lemma drop_manager_kept e w h x cid c :
  handle_of (w_handles w) x = Some cid -> nth_error (w_contents w) cid = Some c ->
  get_id (fst (step e w (ODropManager h))) x = Some (c_id c).
Proof.
  intros Hx Hc. unfold get_id, handle_content. rewrite (step_handle_kept e w (ODropManager h) x cid Hx) by discriminate.
  destruct (step_contents e w (ODropManager h) cid c Hc) as (d & Hd & B). rewrite Hd. apply base_fields in B. cbn. f_equal. apply B.
Qed.

(** The classes are the id of the style with the sheet of the source in the manager attached to
    the source, else in the default one, and the location; and that style is registered there,
    if the manager is still alive, as the default one always is. *)
Theorem source_classes : forall y e page l a src a' cl,
  arun y e (app_start page) l = Some a -> user_source a src = true ->
  into_classes e src a = Some (a', cl) ->
  exists mi m cid c,
    source_manager_is a a' src mi /\ nth_error (w_mgrs (a_world a')) mi = Some m
    /\ nth_error (w_contents (a_world a')) cid = Some c
    /\ c_key c = style_key (m_prefix m) (s_sheet src) /\ c_mgr c = mi
    /\ cl = c_id c :: match s_location src with Some x => [x] | None => [] end
    /\ (mlive (a_world a') mi -> registered (a_world a') mi (style_key (m_prefix m) (s_sheet src)) cid).
Proof.
  intros y e page l a src a' cl R U H. apply good_reached in R. remember (aloaded l) as ids. clear Heqids.
  pose proof (good_classes _ _ _ _ _ _ _ R U H) as [R' _].
  assert (K : exists a1 h mi, match s_manager src with Some h => Some (a, h) | None => default_manager e a end = Some (a1, h)
            /\ app_good e page ids a1 /\ handle_of (w_mhandles (a_world a1)) h = Some mi
            /\ source_manager_is a a1 src mi).
  { unfold source_manager_is. destruct (s_manager src) as [h|] eqn:Es.
    - apply andb_prop in U. destruct U as [_ U]. rewrite Es in U. destruct (handle_of (w_mhandles (a_world a)) h) as [mi|] eqn:Hh; [|discriminate].
      exists a, h, mi. now repeat split; try apply R.
    - unfold into_classes in H. rewrite Es in H. destruct (default_manager e a) as [[a1 h]|] eqn:D; [|discriminate].
      destruct (steps_default _ _ _ _ D) as (_ & _ & d & mi & E1 & E2 & E3). exists a1, h, mi. split; auto.
      apply (good_default e page ids _ _ _ R) in D. destruct D as [D _]. apply good_forget in D. destruct D as [D _].
      split; [exact D|]. split; auto. cbn. eauto. }
  destruct K as (a1 & h & mi & E & G1 & Hh & C). unfold into_classes in H. rewrite E in H. clear E. unfold new_style in H.
  destruct (manager_of (a_world a1) h) as [m1|] eqn:M; [|discriminate].
  destruct (step e (a_world a1) (OCreate h (style_key (m_prefix m1) (s_sheet src)))) as [w2 [x| | | | |]] eqn:S; try discriminate.
  cbv zeta in H.
  destruct (create_result e ids _ _ _ _ _ (good_core _ _ _ _ _ _ G1) S) as (_ & mi' & cid & c & H1 & H2 & _ & H3 & H4 & H5 & H6).
  rewrite Hh in H1. injection H1 as <-. rewrite (drop_manager_kept e w2 h x cid c H2 H3) in H.
  unfold manager_of in M. rewrite Hh in M.
  destruct (step_like e (a_world a1) (OCreate h (style_key (m_prefix m1) (s_sheet src))) _ _ M) as (m2 & M2 & L2).
  rewrite S in M2. cbn [fst] in M2.
  set (w3 := fst (step e w2 (ODropManager h))) in *. set (w4 := fst (step e w3 (ODropStyle x))) in *.
  assert (St : steps e w2 w4).
  { eapply steps_trans; [apply (steps_one e w2 (ODropManager h)); tm|]. apply (steps_one e w3 (ODropStyle x)); tm. }
  assert (Ea : a' = with_world a1 w4) by (injection H as <- _; reflexivity).
  assert (Ecl : cl = c_id c :: match s_location src with Some x => [x] | None => [] end) by (injection H as _ <-; reflexivity).
  clear H. subst a'. cbn [a_world with_world] in *.
  destruct (steps_like _ _ _ _ _ St M2) as (m & M4 & L4). destruct (steps_contents _ _ _ _ _ St H3) as (d & Hd & B).
  pose proof (like_trans _ _ _ L2 L4) as (Lp & _). apply base_fields in B. destruct B as (B1 & B2 & _ & B4 & _).
  exists mi, m, cid, d. split; [|split; [exact M4|split; [exact Hd|split; [|split; [congruence|split; [now rewrite B1|]]]]]].
  - unfold source_manager_is in *. destruct (s_manager src) as [h'|]; [exact C|]. cbn in C |- *.
    destruct C as (d' & C1 & C2). exists d'. split; auto.
    pose proof (gd_live _ _ _ _ _ _ R') as Lv. rewrite Forall_forall in Lv. destruct (Lv d') as [mj Hj].
    + apply in_app_iff. left. unfold dflt. cbn. rewrite C1. now left.
    + cbn in Hj. rewrite Hj. f_equal. eapply passes_same; [|exact C2|exact Hj].
      eapply passes_trans; [|eapply passes_steps; exact St].
      match type of S with step e ?w ?o = _ => pose proof (passes_step e w o) as Ps end. now rewrite S in Ps.
  - rewrite B2, H4. unfold style_key. now rewrite Lp.
  - intros Lv. replace (style_key (m_prefix m) (s_sheet src)) with (style_key (m_prefix m1) (s_sheet src)) by now rewrite Lp.
    destruct (keep_steps e w2 w4 mi (style_key (m_prefix m1) (s_sheet src)) cid St) as [Hr|[_ Dd]]; auto.
    + exists ids. replace w2 with (fst (step e (a_world a1) (OCreate h (style_key (m_prefix m1) (s_sheet src))))) by now rewrite S.
      apply core_step; [eapply good_core; eauto|]. intros id [].
    + destruct Lv as [h' Lv]. now elim (Dd h').
Qed.
Print Assumptions source_classes.

(** Only a source whose manager nothing else holds ends up without its style. *)
Theorem source_style_stays_refuted : exists page e l src, forall y, exists a a' class,
  arun y e (app_start page) l = Some a /\ user_source a src = true
  /\ into_classes e src a = Some (a', [class])
  /\ texts_of class (w_dom (a_world a')) = []
  /\ (forall mi k cid, ~ registered (a_world a') mi k cid).
Proof.
  exists demo_page, demo_env, [AOp (OBuild (lit "app") (Some 1) true false)],
    (mk_source (demo_sheet "red") (Some 0) None).
  intros [[|] [|]]; do 3 eexists; (split; [vm_compute; reflexivity|]); (split; [now vm_compute|]); (split; [vm_compute; reflexivity|]);
    (split; [now vm_compute|]); intros mi k cid (m & Hm & I); destruct mi as [|[|]]; try discriminate Hm; cbn in Hm; injection Hm as <-; contradiction.
Qed.
Print Assumptions source_style_stays_refuted.

Example source_classes_ex : forall y, exists a a',
  arun y demo_env (app_start demo_page) demo_app_ops = Some a
  /\ user_source a (mk_source (demo_sheet "red") (Some 0) (Some (lit "here"))) = true
  /\ into_classes demo_env (from_sheet (Some (lit "here")) (demo_sheet "red")) a
     = Some (a', [lit "stylist-style-4"; lit "here"])
  /\ texts_of (lit "stylist-style-4") (w_dom (a_world a'))
     = [to_style_str (Some (lit "stylist-style-4")) (demo_sheet "red")].
Proof. intros [[|] [|]]; do 2 eexists; (split; [vm_compute; reflexivity|]); (split; [now vm_compute|]); (split; [vm_compute; reflexivity|]); now vm_compute. Qed.

(** The same sheet in the same manager gives the same class again, whatever components and user
    code do in between, unless user code unregisters styles. *)
Theorem source_same_class : forall y e page l a src a1 cl l2 a2 src2 mi,
  arun y e (app_start page) l = Some a -> user_source a src = true ->
  into_classes e src a = Some (a1, cl) -> source_manager_is a a1 src mi ->
  arun y e a1 l2 = Some a2 -> existsb unregisters l2 = false ->
  user_source a2 src2 = true -> source_manager_is a2 a2 src2 mi ->
  s_sheet src2 = s_sheet src -> s_location src2 = s_location src ->
  exists a3, into_classes e src2 a2 = Some (a3, cl).
Proof.
  intros y e page l a src a1 cl l2 a2 src2 mi R U H C R2 NU U2 C2 Es El.
  destruct (source_classes _ _ _ _ _ _ _ _ R U H) as (mi' & m & cid & c & C' & Hm & Hc & Hk & Hi & -> & Reg).
  assert (mi' = mi) as ->.
  { unfold source_manager_is in C, C'. destruct (s_manager src); cbn in C, C'; [congruence|].
    destruct C as (d & C1 & C3). destruct C' as (d' & C1' & C3'). congruence. }
  apply good_reached in R. destruct (good_classes _ _ _ _ _ _ _ R U H) as [R1 _].
  destruct (steps_arun _ _ _ _ _ _ _ R1 R2 NU) as [St _]. pose proof (good_arun _ _ _ _ _ _ _ R1 R2) as G2.
  remember (aloaded l ++ aloaded l2) as ids. clear Heqids.
  assert (Lv : mlive (a_world a2) mi).
  { unfold source_manager_is in C2. destruct (s_manager src2) as [h|]; cbn in C2; [now exists h|]. destruct C2 as (d & _ & Hd). now exists d. }
  pose proof (mlive_steps _ _ _ _ St (nth_lt _ _ _ Hm) Lv) as Lv1. apply Reg in Lv1. clear Reg.
  assert (Cd1 : cored e (a_world a1)) by (exists (aloaded l); eapply good_core; eauto).
  destruct (keep_steps _ _ _ mi (style_key (m_prefix m) (s_sheet src)) cid St Cd1 eq_refl Lv1) as [Rg|[_ Dd]]; [|destruct Lv as [h' Lv]; now elim (Dd h')].
  destruct (steps_like _ _ _ _ _ St Hm) as (m2 & Hm2 & (Lp & _)). destruct (steps_contents _ _ _ _ _ St Hc) as (c2 & Hc2 & B).
  apply base_fields in B. destruct B as (B1 & _). rewrite <- Es, <- El, <- B1 in *.
  (* the manager the second source finds *)
  assert (K : exists a3 h m3, match s_manager src2 with Some h => Some (a2, h) | None => default_manager e a2 end = Some (a3, h)
       /\ handle_of (w_mhandles (a_world a3)) h = Some mi /\ nth_error (w_mgrs (a_world a3)) mi = Some m3 /\ m_prefix m3 = m_prefix m
       /\ registered (a_world a3) mi (style_key (m_prefix m) (s_sheet src2)) cid
       /\ (exists c3, nth_error (w_contents (a_world a3)) cid = Some c3 /\ c_id c3 = c_id c2)
       /\ exists l3, reaches e page l3 (a_world a3)).
  { destruct (gd_reach _ _ _ _ _ _ G2) as (l3 & Re & _).
    unfold source_manager_is in C2. destruct (s_manager src2) as [h|]; cbn in C2.
    - exists a2, h, m2. repeat split; eauto.
    - destruct C2 as (d & E1 & E2). unfold default_manager. rewrite E1.
      destruct (step e (a_world a2) (OCloneManager d)) as [w r] eqn:S.
      assert (exists h, r = RHandle h) as [h ->].
      { cbn [step] in S. unfold clone_manager in S. rewrite E2 in S. injection S as _ <-. eauto. }
      destruct (clone_result _ _ _ _ _ S) as (_ & mj & F1 & F2). rewrite E2 in F1. injection F1 as <-.
      assert (Ew : w = fst (step e (a_world a2) (OCloneManager d))) by now rewrite S.
      destruct (step_like e (a_world a2) (OCloneManager d) _ _ Hm2) as (m3 & Hm3 & (L3 & _)).
      destruct (step_contents e (a_world a2) (OCloneManager d) _ _ Hc2) as (c3 & Hc3 & B3). apply base_fields in B3.
      exists (with_world a2 w), h, m3. cbn [a_world with_world]. split; auto. split; auto. rewrite Ew. split; [exact Hm3|].
      split; [congruence|]. split; [|split; [exists c3; split; [exact Hc3|apply B3]|exists (l3 ++ [OCloneManager d]); now apply reaches_step]].
      destruct (keep_step e (a_world a2) (OCloneManager d) mi (style_key (m_prefix m) (s_sheet src2)) cid ltac:(exists ids; eapply good_core; eauto) ltac:(tm) eq_refl Rg) as [Q|[_ Q]]; auto.
      rewrite <- Ew in Q. now elim (Q h). }
  destruct K as (a3 & h & m3 & E & Hh & Hm3 & Ep & Rg3 & (c3 & Hc3 & Ec3) & l3 & Re).
  unfold into_classes. rewrite E. unfold new_style, manager_of. rewrite Hh, Hm3, Ep.
  destruct (create_registered_shares _ _ _ _ _ _ _ _ _ Re Hh Rg3 Hc3) as (w' & S & Gi & _ & Hx & _).
  rewrite S. cbv zeta. unfold get_id, handle_content in Gi. rewrite Hx in Gi.
  destruct (nth_error (w_contents w') cid) as [c4|] eqn:Hc4; [|discriminate].
  rewrite (drop_manager_kept e w' h _ cid c4 Hx Hc4). cbn in Gi. injection Gi as ->. rewrite Ec3. eexists. reflexivity.
Qed.
Print Assumptions source_same_class.

Example source_same_class_ex : forall y, exists a a1 a2 a3,
  arun y demo_env (app_start demo_page) demo_app_ops = Some a
  /\ into_classes demo_env (demo_source "pink") a = Some (a1, [lit "stylist-style-4"])
  /\ source_manager_is a a1 (demo_source "pink") 1
  /\ arun y demo_env a1 [AUnmount 1; AMount None (demo_source "pink"); AUnmount 3; AClasses (demo_source "grey")] = Some a2
  /\ user_source a2 (demo_source "pink") = true /\ source_manager_is a2 a2 (demo_source "pink") 1
  /\ into_classes demo_env (demo_source "pink") a2 = Some (a3, [lit "stylist-style-4"]).
Proof.
  intros [[|] [|]]; do 4 eexists; (split; [vm_compute; reflexivity|]); (split; [vm_compute; reflexivity|]);
    (split; [eexists; split; vm_compute; reflexivity|]); (split; [vm_compute; reflexivity|]); (split; [reflexivity|]);
    (split; [eexists; split; vm_compute; reflexivity|]); vm_compute; reflexivity.
Qed.

(** In a styled component the source has the manager of the context. *)
Theorem component_css_context : forall e ctx loc s a a1 src,
  component_css e ctx loc s a = Some (a1, src) ->
  s_sheet src = s /\ s_location src = loc
  /\ exists mi h, context_is a a1 ctx mi /\ s_manager src = Some h
       /\ handle_of (w_mhandles (a_world a1)) h = Some mi.
Proof.
  intros e ctx loc s a a1 src H. unfold component_css in H. destruct (context_manager e ctx a) as [[a2 h]|] eqn:E; [|discriminate].
  injection H as <- <-. split; auto. split; auto. destruct (steps_context _ _ _ _ _ E) as (_ & _ & mi & C & Hh). exists mi, h. auto.
Qed.
Print Assumptions component_css_context.

Lemma use_style_good e page ids a ctx src a' x :
  app_good e page ids a -> user_source a src = true ->
  use_style e ctx src a = Some (a', x) ->
  exists mi m cid c,
    context_is a a' ctx mi /\ nth_error (w_mgrs (a_world a')) mi = Some m
    /\ handle_of (w_handles (a_world a')) x = Some cid /\ nth_error (w_contents (a_world a')) cid = Some c
    /\ c_key c = style_key (m_prefix m) (s_sheet src) /\ c_mgr c = mi
    /\ (mlive (a_world a') mi -> registered (a_world a') mi (style_key (m_prefix m) (s_sheet src)) cid).
Proof.
  intros R U H.
  pose proof (good_use_style _ _ _ _ _ _ _ _ R U H) as [R' _].
  unfold use_style in H. destruct (context_manager e ctx a) as [[a1 h]|] eqn:E; [|discriminate].
  destruct (steps_context _ _ _ _ _ E) as (S1 & _ & mi & C & Hh).
  destruct (good_context e page ids _ _ _ _ R E) as [G1 _]. pose proof (good_core _ _ _ _ _ _ G1) as Co1.
  set (w1 := drop_source e src (a_world a1)) in *.
  pose proof (steps_drop_source e src (a_world a1)) as S2. fold w1 in S2.
  unfold new_style in H. destruct (manager_of w1 h) as [m1|] eqn:M; [|discriminate].
  destruct (step e w1 (OCreate h (style_key (m_prefix m1) (s_sheet src)))) as [w2 [z| | | | |]] eqn:S; try discriminate.
  assert (Co2 : core e ids [] w1).
  { unfold w1, drop_source. destruct (s_manager src) as [h'|]; [|exact Co1].
    apply (core_step e ids (a_world a1) (ODropManager h')); [exact Co1|]. intros id []. }
  destruct (create_result e ids _ _ _ _ _ Co2 S) as (_ & mi' & cid & c & H1 & H2 & _ & H3 & H4 & H5 & H6).
  assert (mi' = mi) as -> by (eapply passes_same; [eapply passes_steps; exact S2|exact Hh|exact H1]).
  unfold manager_of in M. rewrite H1 in M.
  destruct (step_like e w1 (OCreate h (style_key (m_prefix m1) (s_sheet src))) _ _ M) as (m2 & M2 & L2). rewrite S in M2. cbn [fst] in M2.
  set (w3 := fst (step e w2 (ODropManager h))) in *.
  assert (Ea : a' = with_world a1 w3) by (injection H as <- _; reflexivity).
  assert (Ex : z = x) by (injection H as _ <-; reflexivity). clear H. subst a' z. cbn [a_world with_world] in *.
  assert (St : steps e w2 w3) by (apply (steps_one e w2 (ODropManager h)); tm).
  destruct (steps_like _ _ _ _ _ St M2) as (m & M4 & L4). destruct (steps_contents _ _ _ _ _ St H3) as (d & Hd & B).
  pose proof (like_trans _ _ _ L2 L4) as (Lp & _). apply base_fields in B. destruct B as (B1 & B2 & _ & B4 & _).
  exists mi, m, cid, d. split; [|split; [exact M4|split; [|split; [exact Hd|split; [|split; [congruence|]]]]]].
  - destruct ctx as [h'|]; [exact C|]. cbn in C |- *. destruct C as (d' & C1 & C2). exists d'. split; auto.
    pose proof (gd_live _ _ _ _ _ _ R') as Lv. rewrite Forall_forall in Lv. destruct (Lv d') as [mj Hj].
    + apply in_app_iff. left. unfold dflt. cbn. rewrite C1. now left.
    + cbn in Hj. rewrite Hj. f_equal. eapply passes_same; [|exact C2|exact Hj].
      eapply passes_trans; [eapply passes_steps; exact S2|]. eapply passes_trans; [|eapply passes_steps; exact St].
      match type of S with step e ?w ?o = _ => pose proof (passes_step e w o) as Ps end. now rewrite S in Ps.
  - apply step_handle_kept; [exact H2|discriminate].
  - rewrite B2, H4. unfold style_key. now rewrite Lp.
  - intros Lv. replace (style_key (m_prefix m) (s_sheet src)) with (style_key (m_prefix m1) (s_sheet src)) by now rewrite Lp.
    destruct (keep_steps e w2 w3 mi (style_key (m_prefix m1) (s_sheet src)) cid St) as [Hr|[_ Dd]]; auto.
    + exists ids. replace w2 with (fst (step e w1 (OCreate h (style_key (m_prefix m1) (s_sheet src))))) by now rewrite S.
      apply core_step; [exact Co2|]. intros id [].
    + destruct Lv as [h' Lv]. now elim (Dd h').
Qed.

(** [use_style]: the style with the sheet, in the manager of the context. *)
Theorem use_style_context : forall y e page l a ctx src a' x,
  arun y e (app_start page) l = Some a -> user_source a src = true ->
  use_style e ctx src a = Some (a', x) ->
  exists mi m cid c,
    context_is a a' ctx mi /\ nth_error (w_mgrs (a_world a')) mi = Some m
    /\ handle_of (w_handles (a_world a')) x = Some cid /\ nth_error (w_contents (a_world a')) cid = Some c
    /\ c_key c = style_key (m_prefix m) (s_sheet src) /\ c_mgr c = mi
    /\ (mlive (a_world a') mi -> registered (a_world a') mi (style_key (m_prefix m) (s_sheet src)) cid).
Proof. intros y e page l a ctx src a' x R. apply good_reached in R. eapply use_style_good; eauto. Qed.
Print Assumptions use_style_context.

Example use_style_ex : forall y, exists a a' a1 src,
  arun y demo_env (app_start demo_page) demo_app_ops = Some a
  /\ use_style demo_env (Some 0) (demo_source "red") a = Some (a', 5)
  /\ get_id (a_world a') 5 = Some (lit "app-style-2")
  /\ component_css demo_env (Some 0) None (demo_sheet "red") a' = Some (a1, src)
  /\ option_map snd (into_classes demo_env src a1) = Some [lit "app-style-2"].
Proof. intros [[|] [|]]; do 4 eexists; (split; [vm_compute; reflexivity|]); (split; [vm_compute; reflexivity|]); (split; [now vm_compute|]); (split; [vm_compute; reflexivity|]); now vm_compute. Qed.

(** ** C48: media queries *)

Lemma mrun_media p i l : forall m oh, fst (fold_left (mstep p i) l (m, oh)) = media_now m l.
Proof.
  induction l as [|o l IH]; intros m oh; [reflexivity|]. cbn [fold_left media_now].
  assert (E : mstep p i (m, oh) o = (match o with MMedia m' => m' | _ => m end, snd (mstep p i (m, oh) o))).
  { destruct o, oh as [h|]; cbn; auto; [destruct (match h_listens h with Some q => _ | None => _ end)|destruct (h_listens h)]; auto. }
  rewrite E, IH. now destruct o.
Qed.
Lemma str_eqb_same a b : str_eqb a b = true -> a = b.
Proof. apply str_eqb_eq. Qed.

(** The listener, once there, keeps the state up to date. *)
Definition listening (m : media) (h : hook) : Prop :=
  match h_listens h with Some q => h_state h = m q | None => True end.
Lemma listening_media m m' h h' p i :
  listening m h -> mstep p i (m, Some h) (MMedia m') = (m', Some h') -> listening m' h'.
Proof.
  unfold listening. cbn. destruct (h_listens h) as [q|] eqn:E; intros L H; injection H as <-; cbn; rewrite ?E; auto.
  destruct (m q) eqn:A, (m' q) eqn:B; cbn; congruence.
Qed.
Lemma prepared_listening i l : forall m oh,
  match oh with Some h => listening m h | None => True end ->
  match snd (fold_left (mstep true i) l (m, oh)) with Some h => listening (media_now m l) h | None => True end.
Proof.
  induction l as [|o l IH]; intros m oh L; [exact L|]. cbn [fold_left media_now].
  destruct o as [q| |m'].
  - destruct oh as [h|]; cbn; apply IH; [exact L|exact I].
  - destruct oh as [h|]; cbn [mstep]; [|now apply IH]. destruct (match h_listens h with Some q => _ | None => _ end); apply IH; auto.
    unfold listening. reflexivity.
  - destruct oh as [h|]; [|cbn; now apply IH].
    destruct (mstep true i (m, Some h) (MMedia m')) as [m1 oh1] eqn:E.
    assert (m1 = m' /\ exists h1, oh1 = Some h1) as [-> [h1 ->]].
    { cbn in E. destruct (h_listens h); injection E as <- <-; eauto. }
    apply IH. eapply listening_media; eauto.
Qed.
Lemma query_kept p i l : forall m h, Forall no_render l ->
  exists h', snd (fold_left (mstep p i) l (m, Some h)) = Some h' /\ h_query h' = h_query h
    /\ (h_listens h = Some (h_query h) \/ In MEffects l -> h_listens h' = Some (h_query h)).
Proof.
  induction l as [|o l IH]; intros m h F; [exists h; split; auto; split; auto; now intros [E|[]]|].
  inversion F as [|? ? F1 F2]; subst. cbn [fold_left]. destruct o as [q| |m']; [contradiction| |].
  - cbn [mstep]. destruct (match h_listens h with Some q => str_eqb q (h_query h) | None => false end) eqn:E.
    + destruct (IH m h F2) as (h' & A & B & C). exists h'. split; auto. split; auto. intros _. apply C. left.
      destruct (h_listens h) as [q|]; [|discriminate]. f_equal. now apply str_eqb_same.
    + destruct (IH m (mk_hook (if p then m (h_query h) else h_state h) (h_query h) (Some (h_query h))) F2) as (h' & A & B & C). exists h'. split; [exact A|]. split; [exact B|]. intros _. apply C. now left.
  - assert (K : exists h1, mstep p i (m, Some h) (MMedia m') = (m', Some h1) /\ h_query h1 = h_query h /\ h_listens h1 = h_listens h).
    { cbn. destruct (h_listens h) eqn:E; eexists; split; try reflexivity; auto. }
    destruct K as (h1 & K1 & K2 & K3). rewrite K1. destruct (IH m' h1 F2) as (h' & A & B & C). exists h'. split; auto.
    split; [congruence|]. intros [Q|[Q|Q]]; [| discriminate |]; rewrite <- K2; apply C; [left; congruence|now right].
Qed.

(** The prepared hook, after the effects of the latest rendering, whatever happened before:
    the value for the query of that rendering and the media of now. *)
Theorem prepared_media_query_current : forall initial m l1 q l2,
  Forall no_render l2 -> In MEffects l2 ->
  exists h, mrun true initial m (l1 ++ MRender q :: l2) = (media_now m (l1 ++ MRender q :: l2), Some h)
    /\ returned h = media_now m (l1 ++ MRender q :: l2) q.
Proof.
  intros initial m l1 q l2 F I. set (l := l1 ++ MRender q :: l2).
  assert (K : exists h, snd (mrun true initial m l) = Some h /\ h_query h = q /\ h_listens h = Some q).
  { unfold mrun, l. rewrite fold_left_app. destruct (fold_left (mstep true initial) l1 (m, None)) as [m1 oh]. cbn [fold_left].
    assert (E : exists h, mstep true initial (m1, oh) (MRender q) = (m1, Some h) /\ h_query h = q).
    { destruct oh as [h|]; cbn; eexists; split; reflexivity. }
    destruct E as (h & -> & Eq). destruct (query_kept true initial l2 m1 h F) as (h' & A & B & C). exists h'. split; auto. rewrite Eq in *. auto. }
  destruct K as (h & K1 & K2 & K3). exists h. split.
  - unfold mrun in *. rewrite <- (mrun_media true initial l m None), <- K1. apply surjective_pairing.
  - pose proof (prepared_listening initial l m None Logic.I) as P. unfold mrun in K1. rewrite K1 in P. unfold listening in P. rewrite K3 in P. exact P.
Qed.
Print Assumptions prepared_media_query_current.

Definition wide : media := fun q => str_eqb q (lit "(min-width: 900px)").
Example prepared_media_query_ex : exists h,
  mrun true (Some true) (fun _ => false)
    [MRender (lit "(min-width: 900px)"); MEffects; MRender (lit "print"); MMedia wide;
     MRender (lit "(min-width: 900px)"); MEffects; MMedia (fun _ => true)] = ((fun _ => true), Some h)
  /\ returned h = true.
Proof. eexists. split; reflexivity. Qed.

(** The plain hook forgets to look when the query changes ... *)
Theorem media_query_current_refuted :
  ~ (forall m l1 q l2, Forall no_render l2 -> In MEffects l2 ->
     exists h, mrun false None m (l1 ++ MRender q :: l2) = (media_now m (l1 ++ MRender q :: l2), Some h)
       /\ returned h = media_now m (l1 ++ MRender q :: l2) q).
Proof.
  intros H. destruct (H wide [MRender (lit "print"); MEffects] (lit "(min-width: 900px)") [MEffects]) as (h & E & V).
  - repeat constructor.
  - now left.
  - vm_compute in E. injection E as <-. vm_compute in V. discriminate.
Qed.
Print Assumptions media_query_current_refuted.

(** ... and, even with one query, when the media change before the effects run. *)
Theorem media_query_early_change_refuted : exists m m' q h,
  mrun false None m [MRender q; MMedia m'; MEffects] = (m', Some h) /\ returned h <> m' q.
Proof. exists (fun _ => false), wide, (lit "(min-width: 900px)"). eexists. split; [reflexivity|discriminate]. Qed.
Print Assumptions media_query_early_change_refuted.

Lemma media_listening q l : forall m h, listening m h -> h_query h = q -> h_listens h = Some q -> Forall (renders_with q) l ->
  exists h', snd (fold_left (mstep false None) l (m, Some h)) = Some h' /\ listening (media_now m l) h' /\ h_listens h' = Some q.
Proof.
  induction l as [|o l IH]; intros m h L E Li F; [exists h; auto|]. inversion F as [|? ? F1 F2]; subst. cbn [fold_left media_now].
  destruct o as [q'| |m'].
  - cbn in F1. subst q'. cbn [mstep]. apply IH; auto.
  - cbn [mstep]. rewrite Li, str_eqb_refl. now apply IH.
  - destruct (mstep false None (m, Some h) (MMedia m')) as [m1 oh1] eqn:Q.
    assert (m1 = m' /\ exists h1, oh1 = Some h1 /\ h_query h1 = h_query h /\ h_listens h1 = h_listens h) as [-> (h1 & -> & Q1 & Q2)].
    { cbn in Q. rewrite Li in *. injection Q as <- <-. split; auto. eexists. split; [reflexivity|]. auto. }
    apply IH; [eapply listening_media; eauto|auto|congruence|exact F2].
Qed.

(** What is left: if all renderings have one query and the media do not change between the first
    rendering and the first effects, the value is the current one from then on.  (Missing: a
    query that changes, see [media_query_current_refuted].) *)
Theorem media_query_current_partial : forall m l1 q l2 l3,
  Forall no_render l1 ->
  Forall (renders_with q) l2 -> Forall no_media l2 -> Forall (renders_with q) l3 ->
  let l := l1 ++ MRender q :: l2 ++ MEffects :: l3 in
  exists h, mrun false None m l = (media_now m l, Some h) /\ returned h = media_now m l q.
Proof.
  intros m l1 q l2 l3 F1 F2 F2' F3 l.
  assert (N1 : forall m oh, oh = None -> snd (fold_left (mstep false None) l1 (m, oh)) = None).
  { clear -F1. induction F1 as [|o l1 Fo F IH]; intros m oh ->; auto. destruct o; [contradiction| |]; cbn; now apply IH. }
  set (m1 := media_now m l1).
  assert (E1 : fold_left (mstep false None) l1 (m, None) = (m1, None)).
  { rewrite (surjective_pairing (fold_left _ _ _)), mrun_media, N1; auto. }
  assert (E2 : forall h, h_query h = q -> h_state h = m1 q -> h_listens h = None \/ h_listens h = Some q ->
    exists h', fold_left (mstep false None) l2 (m1, Some h) = (m1, Some h') /\ h_query h' = q /\ h_state h' = m1 q
      /\ (h_listens h' = None \/ h_listens h' = Some q)).
  { clear -F2 F2'. induction l2 as [|o l2 IH]; intros h A B C; [exists h; auto|].
    inversion F2; subst. inversion F2'; subst. cbn [fold_left]. destruct o as [q'| |m']; [| |contradiction].
    - cbn [renders_with] in *. subst q'. cbn [mstep]. apply IH; auto.
    - cbn [mstep]. destruct C as [C|C]; rewrite C; [|rewrite str_eqb_refl]; apply IH; auto. }
  assert (K : exists h, snd (mrun false None m l) = Some h /\ h_listens h = Some q /\ listening (media_now m l) h).
  { unfold mrun, l. rewrite fold_left_app, E1. cbn [fold_left mstep]. rewrite fold_left_app.
    destruct (E2 (mk_hook (m1 q) q None) eq_refl eq_refl (or_introl eq_refl)) as (h2 & -> & A & B & C). cbn [fold_left].
    assert (E3 : exists h3, mstep false None (m1, Some h2) MEffects = (m1, Some h3) /\ h_query h3 = q /\ h_state h3 = m1 q /\ h_listens h3 = Some q).
    { cbn. destruct C as [C|C]; rewrite C; [|rewrite A, str_eqb_refl]; eexists; (split; [reflexivity|]); cbn; auto. rewrite A. auto. }
    destruct E3 as (h3 & -> & A3 & B3 & C3).
    destruct (media_listening q l3 m1 h3) as (h' & D1 & D2 & D3); auto; [unfold listening; now rewrite C3|].
    exists h'. split; [exact D1|]. split; [exact D3|].
    assert (Em : media_now m (l1 ++ MRender q :: l2 ++ MEffects :: l3) = media_now m1 l3).
    { assert (A1 : forall a b n, media_now n (a ++ b) = media_now (media_now n a) b) by (induction a as [|[| |] a IH]; intros; cbn; auto).
      rewrite A1. fold m1. cbn [media_now]. rewrite A1. cbn [media_now]. f_equal. clear -F2'.
      revert m1. induction F2' as [|o l2 Fo F IH]; intros n; auto. destruct o; cbn; auto. contradiction. }
    rewrite Em. exact D2. }
  destruct K as (h & K1 & K2 & K3). exists h. split.
  - unfold mrun in *. rewrite <- (mrun_media false None l m None), <- K1. apply surjective_pairing.
  - unfold listening in K3. rewrite K2 in K3. exact K3.
Qed.
Print Assumptions media_query_current_partial.

Example media_query_ex : exists h,
  mrun false None wide [MRender (lit "print"); MRender (lit "print"); MEffects; MMedia (fun _ => true); MRender (lit "print")]
  = ((fun _ => true), Some h) /\ returned h = true.
Proof. eexists. split; reflexivity. Qed.
