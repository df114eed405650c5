(** * Progress: in sane programs styles and components can always be created. *)

From Coq Require Import String Ascii List NArith Bool Arith Lia Permutation.
From Verif Require Import Str StrFacts Ast Render CssParser Ids Manager SpecManager
  ManagerFacts ManagerInv ManagerSteps ManagerCore ManagerProps Hydrate Hooks HookFacts SpecProgress.
Import ListNotations.
Local Open Scope list_scope.
Local Opaque parse to_style_str.

(** ** The page keeps which of its containers take elements *)

Definition takes (d : dom) : list bool := map n_accepts d.
Lemma takes_upd d k f : (forall n, n_accepts (f n) = n_accepts n) -> takes (upd d k f) = takes d.
Proof.
  intros F. unfold takes. revert k. induction d as [|n d IH]; intros [|k]; cbn; auto; f_equal; auto.
Qed.
Lemma takes_remove id d : takes (remove_first id d) = takes d.
Proof.
  unfold takes. induction d as [|n d IH]; cbn; auto. destruct (_ && _); cbn; [reflexivity|now f_equal].
Qed.
Lemma takes_unmount e id d : takes (unmount e id d) = takes d.
Proof. unfold unmount. destruct (_ && _); [apply takes_remove|reflexivity]. Qed.
Lemma takes_mount e m id t d d' : mount e m id t d = Some d' -> takes d' = takes d.
Proof.
  unfold mount. destruct (negb _); [congruence|]. destruct (negb _); [discriminate|].
  destruct (m_container m) as [k|]; [|discriminate]. destruct (nth_error d k) as [n|]; [|discriminate].
  destruct (_ && _); [discriminate|]. destruct (n_accepts n); [|discriminate]. intros H. injection H as <-.
  now apply takes_upd.
Qed.
Lemma takes_release e c w : takes (w_dom (release e c w)) = takes (w_dom w).
Proof.
  unfold release. destruct (nth_error _ _) as [x|]; [|reflexivity]. cbv zeta. destruct (_ && _); [|reflexivity].
  cbn. apply takes_unmount.
Qed.
Lemma takes_release_all e l w : takes (w_dom (release_all e l w)) = takes (w_dom w).
Proof.
  unfold release_all. revert w. induction l as [|c l IH]; intros w; cbn; auto. rewrite IH. apply takes_release.
Qed.
Lemma load_data_dom mi l w : w_dom (fst (load_data mi l w)) = w_dom w.
Proof.
  revert w. induction l as [|r l IH]; intros w; [reflexivity|]. cbn [load_data].
  destruct (load_one mi r w) as [w1|] eqn:E; [|reflexivity]. rewrite IH. unfold load_one in E.
  destruct (nth_error (w_mgrs w) mi) as [m|]; [|congruence]. destruct (reg_get _ _) as [c|].
  - destruct (nth_error _ c); [destruct (str_eqb _ _); [|discriminate]|]; congruence.
  - injection E as <-. reflexivity.
Qed.
Lemma step_takes e w o : takes (w_dom (fst (step e w o))) = takes (w_dom w).
Proof.
  destruct o; cbn [step].
  - unfold build. destruct (e_wasm e); [|reflexivity]. destruct cont; [reflexivity|].
    destruct (e_document e); [|reflexivity]. destruct (e_head e); reflexivity.
  - unfold clone_manager. destruct (handle_of _ _); reflexivity.
  - unfold drop_manager. destruct (handle_of _ _) as [mj|]; [|reflexivity].
    destruct (nth_error (w_mgrs w) mj) as [x|]; [|reflexivity]. cbv zeta. destruct (Nat.eqb _ _); cbn [fst]; [|reflexivity].
    now rewrite takes_release_all.
  - destruct (handle_of (w_mhandles w) h) as [mj|]; [|reflexivity].
    unfold get_or_register. destruct (nth_error (w_mgrs w) mj) as [x|]; [|reflexivity].
    destruct (reg_get _ _) as [c|]; [reflexivity|]. cbv zeta. destruct (_ && _); [reflexivity|].
    destruct (m_data x); [reflexivity|].
    destruct (mount _ _ _ _ _) eqn:M; cbn; [apply takes_mount in M; exact M|apply takes_unmount].
  - unfold clone_style. destruct (handle_of _ _) as [c|]; reflexivity.
  - unfold drop_style. destruct (handle_of (w_handles w) h) as [c|]; [|reflexivity]. cbn [fst]. now rewrite takes_release.
  - unfold unregister_style. destruct (handle_of _ _) as [c|]; [|reflexivity].
    destruct (nth_error (w_contents w) c) as [x|]; [|reflexivity]. destruct (nth_error (w_mgrs w) (c_mgr x)) as [y|]; [|reflexivity].
    destruct (Nat.eqb _ _); [reflexivity|]. destruct (reg_remove _ _) as [r [z|]]; cbn [fst]; [now rewrite takes_release|reflexivity].
  - destruct (handle_of _ _); [|reflexivity]. now rewrite load_data_dom.
  - destruct (handle_of _ _); reflexivity.
  - cbn. now apply takes_upd.
  - cbn. now apply takes_upd.
Qed.

(** ** Managers stay as they were built *)

Definition sane_mgr (e : env) (page : dom) (P : str -> Prop) (m : mgr) : Prop :=
  P (m_prefix m)
  /\ (e_wasm e = true -> m_data m = None ->
      m_append m = true /\ e_document e = true
      /\ exists k, m_container m = Some k /\ takes_elements page k).

Lemma sane_upd e page P l i f :
  (forall m, sane_mgr e page P m -> sane_mgr e page P (f m)) ->
  Forall (sane_mgr e page P) l -> Forall (sane_mgr e page P) (upd l i f).
Proof.
  intros F H. revert i. induction H as [|m l Hm H IH]; intros [|i]; cbn; constructor; auto.
Qed.
Lemma load_data_sane e page P mi l w :
  Forall (sane_mgr e page P) (w_mgrs w) -> Forall (sane_mgr e page P) (w_mgrs (fst (load_data mi l w))).
Proof.
  revert w. induction l as [|r l IH]; intros w H; [exact H|]. cbn [load_data].
  destruct (load_one mi r w) as [w1|] eqn:E; [|exact H]. apply IH. unfold load_one in E.
  destruct (nth_error (w_mgrs w) mi) as [m|]; [|injection E as <-; exact H]. destruct (reg_get _ _) as [c|].
  - destruct (nth_error _ c); [destruct (str_eqb _ _); [|discriminate]|]; injection E as <-; exact H.
  - injection E as <-. cbn. apply sane_upd; auto.
Qed.

(** What is needed of the step: managers are built sanely. *)
Definition fine (e : env) (page : dom) (P : str -> Prop) (o : op) : Prop :=
  match o with OBuild p c a s => P p /\ sane_build e page c a s | _ => True end.

Lemma step_sane e page P w o :
  fine e page P o -> Forall (sane_mgr e page P) (w_mgrs w) -> Forall (sane_mgr e page P) (w_mgrs (fst (step e w o))).
Proof.
  intros S H. destruct o; cbn [step]; auto.
  - destruct S as [Hp S]. unfold sane_build, given_container in S. unfold build.
    assert (G : forall c, (e_wasm e = true -> exists k, c = Some k /\ (static = true \/ append = true /\ e_document e = true /\ takes_elements page k)) ->
              Forall (sane_mgr e page P) (w_mgrs w ++ [mk_mgr prefix c append (if static then Some [] else None) [] 1])).
    { intros c G. apply Forall_app. split; auto. constructor; [|constructor]. split; [exact Hp|]. cbn. intros W D.
      destruct (G W) as (k & -> & [->|(A1 & A2 & A3)]); [discriminate|]. eauto. }
    destruct (e_wasm e); [|apply G; discriminate].
    destruct cont as [c|]; [apply G; auto|].
    destruct (e_document e); [|exact H]. destruct (e_head e) as [c|]; [|exact H].
    apply G; auto.
  - unfold clone_manager. destruct (handle_of _ _); [|auto]. cbn. apply sane_upd; auto.
  - unfold drop_manager. destruct (handle_of _ _) as [mj|]; [|auto].
    destruct (nth_error (w_mgrs w) mj) as [x|]; [|auto]. cbv zeta. destruct (Nat.eqb _ _); cbn [fst].
    + match goal with |- Forall _ (w_mgrs (release_all e ?l ?x)) =>
        destruct (release_all_frame e l x) as (_ & -> & _) end. cbn. apply sane_upd; auto.
    + cbn. apply sane_upd; auto.
  - destruct (handle_of (w_mhandles w) h) as [mj|]; [|auto].
    unfold get_or_register. destruct (nth_error (w_mgrs w) mj) as [x|] eqn:Hx; [|auto].
    destruct (reg_get _ _) as [c|]; [auto|]. cbv zeta. destruct (_ && _); [auto|].
    destruct (m_data x) eqn:D.
    + cbn. apply sane_upd; auto. apply sane_upd; auto. intros m [Q _]. split; [exact Q|]. cbn. discriminate.
    + destruct (mount _ _ _ _ _); [|auto]. cbn. apply sane_upd; auto.
  - unfold clone_style. destruct (handle_of _ _) as [c|]; auto.
  - unfold drop_style. destruct (handle_of (w_handles w) h) as [c|]; [|auto]. cbn [fst].
    match goal with |- Forall _ (w_mgrs (release e ?l ?x)) => destruct (release_frame e l x) as (_ & -> & _) end.
    exact H.
  - unfold unregister_style. destruct (handle_of _ _) as [c|]; [|auto].
    destruct (nth_error (w_contents w) c) as [x|]; [|auto]. destruct (nth_error (w_mgrs w) (c_mgr x)) as [y|]; [|auto].
    destruct (Nat.eqb _ _); [auto|]. destruct (reg_remove _ _) as [r [z|]]; cbn [fst].
    + match goal with |- Forall _ (w_mgrs (release e ?l ?x)) => destruct (release_frame e l x) as (_ & -> & _) end.
      cbn. apply sane_upd; auto.
    + cbn. apply sane_upd; auto.
  - destruct (handle_of _ _); [|auto]. now apply load_data_sane.
  - destruct (handle_of _ _); auto.
Qed.

Definition sane (e : env) (page : dom) (P : str -> Prop) (w : world) : Prop :=
  takes (w_dom w) = takes page /\ Forall (sane_mgr e page P) (w_mgrs w).
Lemma sane_start e page P : sane e page P (start page).
Proof. split; [reflexivity|constructor]. Qed.
Lemma sane_step e page P w o : fine e page P o -> sane e page P w -> sane e page P (fst (step e w o)).
Proof. intros S [H1 H2]. split; [now rewrite step_takes|now apply step_sane]. Qed.
Lemma sane_step_res e page P w o w' r :
  fine e page P o -> sane e page P w -> step e w o = (w', r) -> sane e page P w'.
Proof. intros S H E. apply (sane_step _ _ _ _ _ S) in H. now rewrite E in H. Qed.

(** ** Creating succeeds *)

Lemma sane_mount e page P w m id t :
  sane e page P w -> In m (w_mgrs w) -> m_data m = None -> exists d, mount e m id t (w_dom w) = Some d.
Proof.
  intros [T F] I D. rewrite Forall_forall in F. destruct (F _ I) as [_ S]. unfold mount.
  destruct (e_wasm e); [|cbn; eauto]. destruct (S eq_refl D) as (A & -> & k & -> & n & Hn & An). cbn [negb].
  assert (K : nth_error (takes (w_dom w)) k = Some true).
  { rewrite T. unfold takes. rewrite nth_error_map, Hn. cbn. now rewrite An. }
  unfold takes in K. rewrite nth_error_map in K. destruct (nth_error (w_dom w) k) as [n'|]; [|discriminate].
  cbn in K. injection K as ->. rewrite A. cbn. eauto.
Qed.

Lemma sane_create e page P w h mi m k :
  sane e page P w -> handle_of (w_mhandles w) h = Some mi -> nth_error (w_mgrs w) mi = Some m -> rereads e k ->
  exists w' x, step e w (OCreate h k) = (w', RHandle x).
Proof.
  intros S H Hm R. cbn [step]. rewrite H. unfold get_or_register. rewrite Hm.
  destruct (reg_get (m_reg m) k) as [c|]; [eauto|]. cbv zeta.
  replace (e_debug e && _) with false.
  - destruct (m_data m) as [ld|] eqn:D; [eauto|].
    destruct (sane_mount e page P w m (new_id (k_global k) (k_prefix k) (e_draw e (w_draws w)))
                (style_text k (new_id (k_global k) (k_prefix k) (e_draw e (w_draws w)))) S) as [d Hd]; auto.
    { eapply nth_error_In; eauto. }
    cbn [w_dom draw]. rewrite Hd. eauto.
  - destruct (e_debug e) eqn:E; [|reflexivity]. destruct (R E (w_draws w)) as [s ->]. reflexivity.
Qed.

(** A run of operations: every failure is one of loading style data. *)
Lemma sane_run e page l : forall w w' rs,
  (exists ids, core e ids [] w) -> sane e page (fun _ => True) w ->
  Forall (sane_op e page) l -> run e w l = (w', rs) ->
  forall i o r, nth_error l i = Some o -> nth_error rs i = Some r ->
  r = RErr \/ r = RPanic -> exists h d, o = OLoad h d.
Proof.
  induction l as [|o l IH]; intros w w' rs C S F R i o' r Ho Hr Er; [destruct i; discriminate|].
  cbn [run] in R. destruct (step e w o) as [w1 r1] eqn:E1. destruct (run e w1 l) as [w2 rs2] eqn:E2.
  injection R as <- <-. inversion F as [|? ? F1 F2]; subst. destruct C as [ids C].
  destruct i as [|i]; cbn in Ho, Hr.
  - injection Ho as <-. injection Hr as <-. destruct o; cbn [step] in E1; eauto; exfalso.
    + unfold build in E1. cbn in F1. unfold sane_build, given_container in F1.
      destruct (e_wasm e); [|injection E1 as <- <-; destruct Er; discriminate].
      destruct cont as [c|]; [injection E1 as <- <-; destruct Er; discriminate|].
      destruct (F1 eq_refl) as (k & G & _). destruct (e_document e); [|discriminate].
      rewrite G in E1. injection E1 as <- <-; destruct Er; discriminate.
    + unfold clone_manager in E1. destruct (handle_of _ _); injection E1 as <- <-; destruct Er; discriminate.
    + unfold drop_manager in E1. destruct (handle_of _ _) as [mj|]; [|injection E1 as <- <-; destruct Er; discriminate].
      destruct (nth_error (w_mgrs w) mj) as [x|]; [|injection E1 as <- <-; destruct Er; discriminate]. cbv zeta in E1.
      destruct (Nat.eqb _ _); injection E1 as <- <-; destruct Er; discriminate.
    + destruct (handle_of (w_mhandles w) h) as [mi|] eqn:Hh; [|injection E1 as <- <-; destruct Er; discriminate].
      destruct (core_manager _ _ _ _ _ _ C Hh) as (m & Hm & _).
      destruct (sane_create e page _ w h mi m k S Hh Hm F1) as (w'' & x & E). cbn [step] in E. rewrite Hh in E.
      rewrite E in E1. injection E1 as <- <-; destruct Er; discriminate.
    + unfold clone_style in E1. destruct (handle_of _ _); injection E1 as <- <-; destruct Er; discriminate.
    + unfold drop_style in E1. destruct (handle_of _ _); injection E1 as <- <-; destruct Er; discriminate.
    + unfold unregister_style in E1. destruct (handle_of _ _) as [c|]; [|injection E1 as <- <-; destruct Er; discriminate].
      destruct (nth_error (w_contents w) c) as [x|]; [|injection E1 as <- <-; destruct Er; discriminate].
      destruct (nth_error (w_mgrs w) (c_mgr x)) as [y|]; [|injection E1 as <- <-; destruct Er; discriminate].
      destruct (Nat.eqb _ _); [injection E1 as <- <-; destruct Er; discriminate|].
      destruct (reg_remove _ _) as [r' [z|]]; injection E1 as <- <-; destruct Er; discriminate.
    + destruct (handle_of (w_mhandles w) h) as [mi|]; [|injection E1 as <- <-; destruct Er; discriminate].
      injection E1 as <- <-. unfold read_data in Er. destruct (nth_error _ _); destruct Er; discriminate.
    + injection E1 as <- <-; destruct Er; discriminate.
    + injection E1 as <- <-; destruct Er; discriminate.
  - eapply (IH w1 w2 rs2); eauto.
    + exists (ids ++ loaded_ids [o]). replace w1 with (fst (step e w o)) by now rewrite E1.
      apply core_step; auto.
      * eapply core_mono; [|exact C]. intros x I. apply in_app_iff. now left.
      * intros x I. apply in_app_iff. now right.
    + eapply sane_step_res; [|exact S|exact E1]. destruct o; cbn; auto.
Qed.

(** ** Components *)

Section App.
Variables (y : yew) (e : env) (page : dom) (ids : list str) (P : str -> Prop).
Hypothesis Pdef : P (lit "stylist").
Notation Good := (good e page ids).
Notation Sane := (sane e page P).

Definition lives (w : world) (h : nat) : Prop := exists mi, handle_of (w_mhandles w) h = Some mi.

Lemma clone_total w h : lives w h -> exists w' h', step e w (OCloneManager h) = (w', RHandle h').
Proof. intros [mi H]. cbn [step]. unfold clone_manager. rewrite H. eauto. Qed.

Lemma good_lives w gs extra h : Good w gs extra -> In h (extra ++ owned gs) -> lives w h.
Proof. intros G I. pose proof (gd_live _ _ _ _ _ _ G) as L. rewrite Forall_forall in L. now apply L. Qed.

Lemma lives_step w o h : lives w h -> o <> ODropManager h -> lives (fst (step e w o)) h.
Proof. intros [mi H] N. exists mi. now apply step_mhandle_kept. Qed.
Lemma lives_res w o h w' r : lives w h -> o <> ODropManager h -> step e w o = (w', r) -> lives w' h.
Proof. intros L N E. apply (lives_step _ _ _ L) in N. now rewrite E in N. Qed.

Lemma default_total a :
  Good (a_world a) (guards a) (dflt a) -> Sane (a_world a) -> sane_build e page None true false ->
  exists a1 h, default_manager e a = Some (a1, h) /\ Sane (a_world a1) /\ lives (a_world a1) h
    /\ (forall x, lives (a_world a) x -> lives (a_world a1) x).
Proof.
  intros G S B. unfold default_manager. destruct (a_default a) as [d|] eqn:D.
  - assert (L : lives (a_world a) d).
    { eapply good_lives; [exact G|]. apply in_app_iff. left. unfold dflt. rewrite D. now left. }
    destruct (clone_total _ _ L) as (w & h' & E). rewrite E. eexists _, _. split; [reflexivity|]. cbn [a_world with_world].
    split; [eapply sane_step_res; [|exact S|exact E]; exact I|].
    split; [|intros x Lx; eapply lives_res; [exact Lx| |exact E]; discriminate].
    destruct (clone_result _ _ _ _ _ E) as (_ & mi & _ & H). now exists mi.
  - assert (E : exists w h, step e (a_world a) (OBuild (lit "stylist") None true false) = (w, RHandle h)).
    { cbn [step]. unfold build. unfold sane_build, given_container in B. destruct (e_wasm e); [|eauto].
      destruct (B eq_refl) as (k & K & _). destruct (e_document e); [|discriminate]. rewrite K. eauto. }
    destruct E as (w & h & E). rewrite E. destruct (build_result _ _ _ _ _ _ _ _ E) as (_ & Hh & _).
    assert (L : lives w h) by now exists (List.length (w_mgrs (a_world a))).
    destruct (clone_total _ _ L) as (w1 & h' & E'). rewrite E'. eexists _, _. split; [reflexivity|]. cbn [a_world].
    split.
    { eapply sane_step_res; [|eapply sane_step_res; [|exact S|exact E]|exact E']; [exact I|]. now split. }
    split.
    { destruct (clone_result _ _ _ _ _ E') as (_ & mi & _ & H). now exists mi. }
    intros x Lx. eapply lives_res; [eapply lives_res; [exact Lx| |exact E]| |exact E']; discriminate.
Qed.

Lemma context_total ctx a :
  Good (a_world a) (guards a) (dflt a) -> Sane (a_world a) -> default_sane e page ctx -> not_dropped a ctx ->
  exists a1 h, context_manager e ctx a = Some (a1, h) /\ Sane (a_world a1) /\ lives (a_world a1) h
    /\ (forall x, lives (a_world a) x -> lives (a_world a1) x).
Proof.
  intros G S B L. destruct ctx as [d|]; [|now apply default_total; auto]. cbn [context_manager].
  destruct (clone_total _ _ L) as (w & h' & E). rewrite E. eexists _, _. split; [reflexivity|]. cbn [a_world with_world].
  split; [eapply sane_step_res; [|exact S|exact E]; exact I|].
  split; [|intros x Lx; eapply lives_res; [exact Lx| |exact E]; discriminate].
  destruct (clone_result _ _ _ _ _ E) as (_ & mi & _ & H). now exists mi.
Qed.

Lemma good_manager w gs extra h : Good w gs extra -> lives w h ->
  exists mi m, handle_of (w_mhandles w) h = Some mi /\ nth_error (w_mgrs w) mi = Some m.
Proof.
  intros G [mi H]. apply good_core in G. destruct (core_manager _ _ _ _ _ _ G H) as (m & Hm & _). eauto.
Qed.

Lemma sane_prefix w m mi : Sane w -> nth_error (w_mgrs w) mi = Some m -> P (m_prefix m).
Proof.
  intros [_ F] H. rewrite Forall_forall in F. apply (F m). eapply nth_error_In; eauto.
Qed.

Lemma new_style_total w gs extra h s :
  Good w gs extra -> Sane w -> lives w h -> (forall p, P p -> rereads e (mk_key false p s)) ->
  exists w' x, new_style e h s w = (w', RHandle x).
Proof.
  intros G S L R. destruct (good_manager _ _ _ _ G L) as (mi & m & H & Hm). unfold new_style, manager_of. rewrite H, Hm.
  eapply sane_create; eauto. apply R. eapply sane_prefix; eauto.
Qed.
Lemma new_style_sane w h s w' r : Sane w -> new_style e h s w = (w', r) -> Sane w'.
Proof.
  intros S H. unfold new_style in H. destruct (manager_of w h); [|now injection H as <- _].
  eapply sane_step_res; [|exact S|exact H]; exact I.
Qed.

Lemma drop_source_sane src w : Sane w -> Sane (drop_source e src w).
Proof. intros S. unfold drop_source. destruct (s_manager src); [|exact S]. now apply sane_step. Qed.
Lemma drop_guard_sane g w : Sane w -> Sane (drop_guard y e g w).
Proof.
  intros S. unfold drop_guard, drop_value, drop_deps.
  destruct (y_key_first y); repeat first [exact S|apply drop_source_sane|apply sane_step; [exact I|]].
Qed.

Lemma new_guard_total w gs extra h src :
  Good w gs extra -> Sane w -> lives w h -> (forall p, P p -> rereads e (mk_key true p (s_sheet src))) ->
  exists w' g, new_guard e h src w = Some (w', g) /\ Sane w'.
Proof.
  intros G S L R. destruct (good_manager _ _ _ _ G L) as (mi & m & H & Hm). unfold new_guard, manager_of. rewrite H, Hm.
  destruct (sane_create e page P w h mi m (global_key m (s_sheet src)) S H Hm) as (w' & x & E).
  { apply R. eapply sane_prefix; eauto. }
  rewrite E. eexists _, _. split; [reflexivity|]. eapply sane_step_res; [|exact S|exact E]; exact I.
Qed.

Lemma memo_total old h src w gs extra :
  Good w (olds old ++ gs) (h :: source_handles src ++ extra) -> Sane w ->
  (forall p, P p -> rereads e (mk_key true p (s_sheet src))) ->
  exists w' g, memo y e old h src w = Some (w', g) /\ Sane w'.
Proof.
  intros G S R. assert (L : lives w h) by (eapply good_lives; [exact G|now left]).
  unfold memo. destruct old as [g|]; cbn [olds List.app] in G.
  - destruct (same_manager _ _ _ && source_eqb _ _ _).
    + eexists _, _. split; [reflexivity|]. apply drop_source_sane. now apply sane_step.
    + destruct (y_drop_first y).
      * pose proof (good_drop_guard y _ _ _ _ _ _ _ G) as G'. eapply new_guard_total; [exact G'|now apply drop_guard_sane| |exact R].
        eapply good_lives; [exact G'|now left].
      * destruct (new_guard_total _ _ _ _ _ G S L R) as (w1 & g1 & E & S1). rewrite E. eexists _, _. split; [reflexivity|].
        now apply drop_guard_sane.
  - eapply new_guard_total; eauto.
Qed.

Lemma render_total old ctx src a gs :
  app_good e page ids a -> Permutation (guards a) (olds old ++ gs) -> Sane (a_world a) ->
  default_sane e page ctx -> not_dropped a ctx -> not_dropped a (s_manager src) ->
  (forall p, P p -> rereads e (mk_key true p (s_sheet src))) ->
  exists a' g, render_global y e old ctx src a = Some (a', g) /\ Sane (a_world a').
Proof.
  intros G Pm S D L Ls R. unfold render_global.
  destruct (context_total ctx a G S D L) as (a1 & h & E & S1 & L1 & K). rewrite E.
  destruct (good_context _ _ _ _ _ _ _ G E) as [G1 Eg].
  assert (C : exists w1 src1, clone_source e src (a_world a1) = Some (w1, src1) /\ Sane w1).
  { unfold clone_source. destruct (s_manager src) as [d|]; [|eauto].
    destruct (clone_total (a_world a1) d) as (w & h' & Ec); [now apply K|]. rewrite Ec. eexists _, _. split; [reflexivity|].
    eapply sane_step_res; [|exact S1|exact Ec]; exact I. }
  destruct C as (w1 & src1 & C & S2). rewrite C. destruct (good_clone_source _ _ _ _ _ _ _ _ _ G1 C) as [G2 Es].
  destruct (memo_total old h src1 w1 gs (dflt a1)) as (w2 & g & E2 & S3); auto.
  - eapply good_perm; [| |exact G2].
    + unfold guards. rewrite Eg. exact Pm.
    + symmetry. apply Permutation_middle.
  - now rewrite Es.
  - rewrite E2. eexists _, _. split; [reflexivity|]. exact S3.
Qed.

Lemma good_forgets w gs h extra : Good w gs (h :: extra) -> Good w gs extra.
Proof. intros G. now apply good_forget in G. Qed.

Lemma classes_total src a :
  app_good e page ids a -> Sane (a_world a) -> user_source a src = true -> default_sane e page (s_manager src) ->
  (forall p, P p -> rereads e (mk_key false p (s_sheet src))) ->
  exists a' cl, into_classes e src a = Some (a', cl) /\ Sane (a_world a').
Proof.
  intros G S U D R. unfold into_classes.
  assert (K : exists a1 h, match s_manager src with Some h => Some (a, h) | None => default_manager e a end = Some (a1, h)
     /\ app_good e page ids a1 /\ Sane (a_world a1) /\ lives (a_world a1) h).
  { apply andb_prop in U. destruct U as [_ U]. destruct (s_manager src) as [h|].
    - exists a, h. repeat split; auto; try apply S; try apply G. destruct (handle_of _ h) as [mi|] eqn:H; [now exists mi|discriminate].
    - destruct (default_total a G S) as (a1 & h & E & S1 & L1 & _); [now apply D|]. exists a1, h. repeat split; auto; try apply S1.
      all: destruct (good_default _ _ _ _ _ _ G E) as [G1 _]; apply good_forgets in G1; apply G1. }
  destruct K as (a1 & h & -> & G1 & S1 & L1).
  destruct (new_style_total _ _ _ _ (s_sheet src) G1 S1 L1 R) as (w2 & x & E). rewrite E. cbv zeta.
  pose proof (new_style_sane _ _ _ _ _ S1 E) as S2.
  assert (X : exists cl, get_id (fst (step e w2 (ODropManager h))) x = Some cl).
  { unfold new_style in E. destruct (manager_of (a_world a1) h) as [m|]; [|discriminate].
    destruct (create_result _ _ _ _ _ _ _ (good_core _ _ _ _ _ _ G1) E) as (_ & mi & cid & c & _ & H2 & _ & H3 & _).
    pose proof (step_handle_kept e w2 (ODropManager h) x cid H2 ltac:(discriminate)) as H2'.
    destruct (step_contents e w2 (ODropManager h) cid c H3) as (c' & H3' & _).
    unfold get_id, handle_content. rewrite H2', H3'. cbn. eauto. }
  destruct X as [cl ->]. eexists _, _. split; [reflexivity|]. cbn [a_world with_world].
  now do 2 (apply sane_step; [exact I|]).
Qed.

Lemma use_style_total ctx src a :
  app_good e page ids a -> Sane (a_world a) -> user_source a src = true -> default_sane e page ctx ->
  not_dropped a ctx ->
  (forall p, P p -> rereads e (mk_key false p (s_sheet src))) ->
  exists a' x, use_style e ctx src a = Some (a', x) /\ Sane (a_world a').
Proof.
  intros G S U D L R. unfold use_style. destruct (context_total ctx a G S D L) as (a1 & h & E & S1 & L1 & K). rewrite E.
  destruct (good_context _ _ _ _ _ _ _ G E) as [G1 Eg]. cbv zeta.
  destruct (context_fresh _ _ _ _ _ E) as [Ed Eh].
  assert (G2 : Good (drop_source e src (a_world a1)) (guards a1) (h :: dflt a1)).
  { unfold drop_source. apply andb_prop in U. destruct U as [F1 F2]. destruct (s_manager src) as [d|]; [|exact G1].
    apply free_not_in in F1. destruct (handle_of (w_mhandles (a_world a)) d) as [mi|] eqn:Hd; [|discriminate].
    apply handle_lt in Hd. apply good_step; auto; [discriminate|]. intros h' Q. injection Q as <-.
    intros J. cbn in J. destruct J as [J|J]; [lia|]. apply in_app_iff in J. destruct J as [J|J].
    - unfold dflt in J. destruct (a_default a1) as [d'|] eqn:D1; [|contradiction]. destruct J as [<-|[]].
      destruct (Ed _ eq_refl) as [Q|Q]; [|lia]. apply F1. rewrite app_owned. apply in_app_iff. left. unfold dflt. rewrite Q. now left.
    - apply F1. rewrite app_owned. apply in_app_iff. right. unfold guards in *. now rewrite <- Eg. }
  pose proof (drop_source_sane src _ S1) as S2.
  destruct (new_style_total _ _ _ h (s_sheet src) G2 S2) as (w2 & x & Ex); auto.
  { eapply good_lives; [exact G2|now left]. }
  rewrite Ex. eexists _, _. split; [reflexivity|]. cbn [a_world with_world]. apply sane_step; [exact I|].
  eapply new_style_sane; eauto.
Qed.
End App.

(** ** Every step keeps the managers sane *)

Section Keep.
Variables (y : yew) (e : env) (page : dom) (P : str -> Prop).
Hypothesis Pdef : P (lit "stylist").
Notation Sane := (sane e page P).

Lemma default_keeps a a1 h :
  Sane (a_world a) -> sane_build e page None true false -> default_manager e a = Some (a1, h) -> Sane (a_world a1).
Proof.
  intros S B H. unfold default_manager in H. destruct (a_default a) as [d|].
  - destruct (step e (a_world a) (OCloneManager d)) as [w [h'| | | | |]] eqn:E; try discriminate. injection H as <- <-.
    eapply sane_step_res; [|exact S|exact E]; exact I.
  - destruct (step e (a_world a) (OBuild _ None true false)) as [w [h0| | | | |]] eqn:S0; try discriminate.
    destruct (step e w (OCloneManager h0)) as [w1 [h'| | | | |]] eqn:S1; try discriminate. injection H as <- <-.
    eapply sane_step_res; [|eapply sane_step_res; [|exact S|exact S0]|exact S1]; [exact I|]. now split.
Qed.
Lemma context_keeps ctx a a1 h :
  Sane (a_world a) -> default_sane e page ctx -> context_manager e ctx a = Some (a1, h) -> Sane (a_world a1).
Proof.
  intros S B H. destruct ctx as [d|]; [|eapply default_keeps; eauto]. cbn [context_manager] in H.
  destruct (step e (a_world a) (OCloneManager d)) as [w [h'| | | | |]] eqn:E; try discriminate. injection H as <- <-.
  eapply sane_step_res; [|exact S|exact E]; exact I.
Qed.
Lemma new_guard_keeps h src w w' g : Sane w -> new_guard e h src w = Some (w', g) -> Sane w'.
Proof.
  intros S H. unfold new_guard in H. destruct (manager_of w h); [|discriminate].
  destruct (step e w _) as [w1 [x| | | | |]] eqn:E; try discriminate. injection H as <- <-.
  eapply sane_step_res; [|exact S|exact E]; exact I.
Qed.
Lemma render_keeps old ctx src a a' g :
  Sane (a_world a) -> default_sane e page ctx -> render_global y e old ctx src a = Some (a', g) -> Sane (a_world a').
Proof.
  intros S B H. unfold render_global in H. destruct (context_manager e ctx a) as [[a1 h]|] eqn:E; [|discriminate].
  apply (context_keeps _ _ _ _ S B) in E.
  destruct (clone_source e src (a_world a1)) as [[w1 src1]|] eqn:C; [|discriminate].
  assert (S1 : Sane w1).
  { unfold clone_source in C. destruct (s_manager src) as [d|]; [|now injection C as <- _].
    destruct (step e (a_world a1) (OCloneManager d)) as [w [h'| | | | |]] eqn:Ec; try discriminate. injection C as <- <-.
    eapply sane_step_res; [|exact E|exact Ec]; exact I. }
  destruct (memo y e old h src1 w1) as [[w2 g1]|] eqn:M; [|discriminate]. injection H as <- <-. cbn [a_world with_world].
  unfold memo in M. destruct old as [g0|]; [|eapply new_guard_keeps; eauto].
  destruct (_ && _).
  - injection M as <- <-. apply drop_source_sane. apply (sane_step e page P w1 (ODropManager h)); [exact I|exact S1].
  - destruct (y_drop_first y).
    + eapply new_guard_keeps; [|exact M]. now apply drop_guard_sane.
    + destruct (new_guard e h src1 w1) as [[w3 g3]|] eqn:N; [|discriminate]. injection M as <- <-.
      apply drop_guard_sane. eapply new_guard_keeps; eauto.
Qed.
Lemma classes_keeps src a a' cl :
  Sane (a_world a) -> default_sane e page (s_manager src) -> into_classes e src a = Some (a', cl) -> Sane (a_world a').
Proof.
  intros S B H. unfold into_classes in H.
  destruct (match s_manager src with Some h => Some (a, h) | None => default_manager e a end) as [[a1 h]|] eqn:E; [|discriminate].
  assert (S1 : Sane (a_world a1)).
  { destruct (s_manager src); [now injection E as <- _|]. eapply default_keeps; eauto. }
  destruct (new_style e h (s_sheet src) (a_world a1)) as [w2 [x| | | | |]] eqn:N; try discriminate. cbv zeta in H.
  destruct (get_id _ x); [|discriminate]. injection H as <- <-. cbn [a_world with_world].
  apply (sane_step e page P (fst (step e w2 (ODropManager h))) (ODropStyle x)); [exact I|].
  apply (sane_step e page P w2 (ODropManager h)); [exact I|]. eapply new_style_sane; eauto.
Qed.
Lemma use_style_keeps ctx src a a' x :
  Sane (a_world a) -> default_sane e page ctx -> use_style e ctx src a = Some (a', x) -> Sane (a_world a').
Proof.
  intros S B H. unfold use_style in H. destruct (context_manager e ctx a) as [[a1 h]|] eqn:E; [|discriminate].
  apply (context_keeps _ _ _ _ S B) in E. cbv zeta in H.
  destruct (new_style e h (s_sheet src) _) as [w2 [z| | | | |]] eqn:N; try discriminate. injection H as <- <-.
  cbn [a_world with_world]. apply (sane_step e page P w2 (ODropManager h)); [exact I|].
  eapply new_style_sane; [|exact N]. now apply drop_source_sane.
Qed.
End Keep.

Lemma not_in_free l o : (forall h, o = Some h -> ~ In h l) -> free l o = true.
Proof.
  intros H. unfold free. destruct o as [h|]; [|reflexivity]. apply negb_true_iff, not_true_iff_false. intros E.
  apply existsb_exists in E. destruct E as (x & I & E). apply Nat.eqb_eq in E. subst x. now apply (H h).
Qed.

Lemma no_panic e page w o : (exists ids, core e ids [] w) -> sane e page (fun _ => True) w ->
  sane_op e page o -> (forall h d, o <> OLoad h d) -> snd (step e w o) <> RPanic.
Proof.
  intros C S F N E. destruct (step e w o) as [w' r] eqn:St. cbn in E. subst r.
  destruct (sane_run e page [o] w w' [RPanic] C S (Forall_cons _ F (Forall_nil _))) with (i := 0) (o := o) (r := RPanic)
    as (h & d & ->); auto.
  - cbn [run]. now rewrite St.
  - now elim (N h d).
Qed.

Lemma sane_weaken e page (P Q : str -> Prop) w : (forall p, P p -> Q p) -> sane e page P w -> sane e page Q w.
Proof.
  intros K [T F]. split; [exact T|]. eapply Forall_impl; [|exact F]. intros m [A B]. split; auto.
Qed.

Lemma fine_sane e page (P : str -> Prop) o : sane_op e page o -> (forall p c a s, o = OBuild p c a s -> P p) -> fine e page P o.
Proof. destruct o; cbn; auto. intros S H. split; auto. eapply H; eauto. Qed.

Section Program.
Variables (y : yew) (e : env) (page : dom) (ps : list str).
Hypothesis Pdef : In (lit "stylist") ps.
Definition builds_in (o : aop) : Prop := forall p c a s, o = AOp (OBuild p c a s) -> In p ps.

Lemma astep_total ids a o :
  app_good e page ids a -> sane e page (fun p => In p ps) (a_world a) ->
  sane_aop e page ps o -> builds_in o -> allowed a o -> exists a', astep y e a o = Some a'.
Proof.
  intros G S F B A. destruct o as [o|ctx src|i ctx src|i|src|ctx src]; cbn [astep sane_aop allowed] in *.
  - assert (A' : (forall h, op_style o = Some h -> ~ In h (style_handles a))
             /\ (forall h, op_mhandle o = Some h -> ~ In h (manager_handles a)) /\ (forall h d, o <> OLoad h d)).
    { destruct o; try contradiction; repeat split; try apply A; discriminate. }
    destruct A' as (A1 & A2 & A3). rewrite !not_in_free by assumption. cbn [andb].
    pose proof (no_panic e page (a_world a) o) as N.
    destruct (step e (a_world a) o) as [w r] eqn:E. cbn [snd] in N. destruct r; eauto. exfalso. apply N; auto.
    + exists ids. eapply good_core; eauto.
    + eapply sane_weaken; [|exact S]. auto.
  - destruct F as [F1 F2]. destruct A as [A1 A2].
    destruct (render_total y e page ids _ Pdef None ctx src a (guards a) G (Permutation_refl _) S F1 A1 A2 F2) as (a' & g & E & _).
    rewrite E. eauto.
  - destruct F as [F1 F2]. destruct A as (A1 & A2 & g & Hg). rewrite Hg.
    destruct (guards_upd _ _ _ None Hg) as (gs & P1 & _).
    destruct (render_total y e page ids _ Pdef (Some g) ctx src a gs G P1 S F1 A1 A2 F2) as (a' & g' & E & _). rewrite E. eauto.
  - destruct A as [g ->]. eauto.
  - destruct F as [F1 F2]. destruct A as [A1 A2].
    assert (U : user_source a src = true).
    { unfold user_source. rewrite not_in_free by assumption. destruct (s_manager src) as [h|]; [|reflexivity].
      destruct A1 as [mi ->]. reflexivity. }
    rewrite U. destruct (classes_total e page ids _ Pdef src a G S U F1 F2) as (a' & cl & -> & _). cbn. eauto.
  - destruct F as [F1 F2]. destruct A as (A1 & A2 & A3).
    assert (U : user_source a src = true).
    { unfold user_source. rewrite not_in_free by assumption. destruct (s_manager src) as [h|]; [|reflexivity].
      destruct A2 as [mi ->]. reflexivity. }
    rewrite U. destruct (use_style_total e page ids _ Pdef ctx src a G S U F1 A1 F2) as (a' & cl & -> & _). cbn. eauto.
Qed.

Lemma astep_keeps a o a' :
  sane e page (fun p => In p ps) (a_world a) -> sane_aop e page ps o -> builds_in o ->
  astep y e a o = Some a' -> sane e page (fun p => In p ps) (a_world a').
Proof.
  intros S F B H. destruct o as [o|ctx src|i ctx src|i|src|ctx src]; cbn [astep sane_aop] in *.
  - destruct (free _ _ && free _ _); [|discriminate].
    assert (K : sane e page (fun p => In p ps) (fst (step e (a_world a) o))).
    { apply sane_step; auto. apply fine_sane; auto. intros p c b s ->. eapply B; eauto. }
    destruct (step e (a_world a) o) as [w [ | | | | | ]]; try discriminate; injection H as <-; exact K.
  - destruct (render_global y e None ctx src a) as [[a1 g]|] eqn:R; [|discriminate]. injection H as <-.
    cbn [a_world with_globals]. eapply render_keeps; [exact Pdef|exact S| |exact R]. apply F.
  - destruct (nth_error (a_globals a) i) as [[g|]|]; try discriminate.
    destruct (render_global y e (Some g) ctx src a) as [[a1 g1]|] eqn:R; [|discriminate]. injection H as <-.
    cbn [a_world with_globals]. eapply render_keeps; [exact Pdef|exact S| |exact R]. apply F.
  - destruct (nth_error (a_globals a) i) as [[g|]|]; try discriminate. injection H as <-. cbn. now apply drop_guard_sane.
  - destruct (user_source a src); [|discriminate].
    destruct (into_classes e src a) as [[a1 cl]|] eqn:C; [|discriminate]. injection H as <-.
    eapply classes_keeps; [exact Pdef|exact S| |exact C]. apply F.
  - destruct (user_source a src); [|discriminate].
    destruct (use_style e ctx src a) as [[a1 cl]|] eqn:C; [|discriminate]. injection H as <-.
    eapply use_style_keeps; [exact Pdef|exact S| |exact C]. apply F.
Qed.

Lemma arun_keeps l : forall a a',
  sane e page (fun p => In p ps) (a_world a) -> Forall (sane_aop e page ps) l -> Forall builds_in l ->
  arun y e a l = Some a' -> sane e page (fun p => In p ps) (a_world a').
Proof.
  induction l as [|o l IH]; intros a a' S F B H; cbn [arun] in H; [now injection H as <-|].
  destruct (astep y e a o) as [a1|] eqn:E; [|discriminate]. inversion F; subst. inversion B; subst.
  eapply IH; [|eassumption|eassumption|exact H]. eapply astep_keeps; eauto.
Qed.
End Program.

Lemma prefixes_builds l : Forall (builds_in (prefixes l)) l.
Proof.
  apply Forall_forall. intros o I p c a s ->. right. apply in_flat_map. eexists. split; [exact I|]. now left.
Qed.
