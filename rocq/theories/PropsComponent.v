(** * PropsComponent: styled components (C75-C77). *)

From Coq Require Import String Ascii List NArith Bool Arith Lia.
From Verif Require Import Str StrFacts Ast Render CssParser SheetCache Ids IdFacts Manager SpecManager
  ManagerFacts ManagerInv ManagerSteps ManagerCore ManagerProps Hydrate Hooks SpecHooks HookFacts HookOnly
  HookTame HookKeep PropsManager PropsHooks PropsCache SpecProgress PropsProgress Create SpecCreate CreateFacts PropsCreate
  SpecGrammar SpecReparse ParserComplete ReparseWritten PropsReparse PropsParser PropsRender Tok Output Owned LitMacro
  SpecOutput SpecMacro PropsMacro SpecInline Inline PropsInline SpecRender SpecPage PropsPage
  Component SpecComponent ComponentFacts MacroFn SpecMacroFn.
Import ListNotations.
Local Open Scope list_scope.
Local Opaque parse to_style_str.

(** ** C75: the classes *)

Lemma context_same a a1 ctx mi mi' : context_is a a1 ctx mi -> context_is a a1 ctx mi' -> mi = mi'.
Proof. unfold context_is. destruct ctx; [congruence|]. intros (d & A & B) (d' & A' & B'). congruence. Qed.

Lemma classes_good y e page ids p ctx body p1 cls pas mi :
  pgood e page ids p -> render_component y e ctx body p = Some (p1, cls, pas) ->
  existsb bunregisters body = false ->
  context_is (p_app p) (p_app p1) ctx mi -> mlive (a_world (p_app p1)) mi ->
  Forall2 (classes_in (a_world (p_app p1)) mi) (asks [] body) cls.
Proof.
  intros H R U Cx Lv.
  destruct (render_good _ _ _ _ _ _ _ _ _ _ H R) as [_ S]. destruct (S U) as (_ & _ & mi' & Cx' & F).
  rewrite (context_same _ _ _ _ _ Cx Cx') in *. auto.
Qed.

(** The classes a styled component gets are those of its CSS in the manager of the context, in
    the order in which it asks for them, whatever else its function does. *)
Theorem component_classes : forall y e page l p ctx body p1 cls pas mi,
  crun y e (prog_start page) l = Some p -> render_component y e ctx body p = Some (p1, cls, pas) ->
  existsb bunregisters body = false ->
  context_is (p_app p) (p_app p1) ctx mi -> mlive (a_world (p_app p1)) mi ->
  Forall2 (classes_in (a_world (p_app p1)) mi) (asks [] body) cls.
Proof.
  intros y e page l p ctx body p1 cls pas mi H R U Cx Lv. apply pgood_creached in H. eapply classes_good; eauto.
Qed.
Print Assumptions component_classes.

Lemma crun_app y e : forall l q p l' p', crun y e q l = Some p -> crun y e p l' = Some p' -> crun y e q (l ++ l') = Some p'.
Proof.
  induction l as [|o l IH]; intros q p l' p' H H'; cbn [crun List.app] in *.
  - now injection H as ->.
  - destruct (cstep y e q o); [eauto|discriminate].
Qed.
Lemma crun_render y e l q p ctx body p1 cls pas :
  crun y e q l = Some p -> render_component y e ctx body p = Some (p1, cls, pas) -> crun y e q (l ++ [CRender ctx body]) = Some p1.
Proof. intros H R. eapply crun_app; eauto. cbn [crun cstep]. now rewrite R. Qed.
Lemma cloaded_app l l' : cloaded (l ++ l') = cloaded l ++ cloaded l'.
Proof. unfold cloaded. apply flat_map_app. Qed.
Lemma Forall2_nth_l {A B} (R : A -> B -> Prop) l l' i a :
  Forall2 R l l' -> nth_error l i = Some a -> exists b, nth_error l' i = Some b /\ R a b.
Proof. intros H. revert i. induction H as [|x b l l' Hab _ IH]; intros [|i] K; cbn in *; try discriminate; [injection K as <-; eauto|auto]. Qed.

(** They stay those of the CSS while the program goes on and the manager lives. *)
Lemma classes_stay y e page l p ctx body p1 cls pas mi l' p2 :
  crun y e (prog_start page) l = Some p -> render_component y e ctx body p = Some (p1, cls, pas) ->
  existsb bunregisters body = false -> context_is (p_app p) (p_app p1) ctx mi ->
  crun y e p1 l' = Some p2 -> existsb cunregisters l' = false -> mlive (a_world (p_app p2)) mi ->
  Forall2 (classes_in (a_world (p_app p2)) mi) (asks [] body) cls.
Proof.
  intros H R U Cx H2 U2 Lv. pose proof (crun_render _ _ _ _ _ _ _ _ _ _ H R) as H1.
  pose proof (pgood_creached _ _ _ _ _ H1) as G1. destruct (steps_crun _ _ _ _ _ _ _ G1 H2 U2) as [S _].
  pose proof G1 as (_ & G1a & _).
  assert (Lv1 : mlive (a_world (p_app p1)) mi).
  { apply (mlive_steps e (a_world (p_app p1)) (a_world (p_app p2))); auto.
    apply pgood_creached in H. destruct (render_good _ _ _ _ _ _ _ _ _ _ H R) as [_ S1]. destruct (S1 U) as (S1' & _).
    destruct ctx as [h|]; cbn [context_is] in Cx.
    - pose proof H as (_ & Ga & _). destruct (mlive_mgr e (a_world (p_app p)) mi (good_cored _ _ _ _ _ _ Ga)) as [m Hm]; [now exists h|].
      destruct (steps_like _ _ _ _ _ S1' Hm) as (m' & Hm' & _). apply nth_error_Some. congruence.
    - destruct Cx as (d & _ & Hd). destruct (mlive_mgr e (a_world (p_app p1)) mi (good_cored _ _ _ _ _ _ G1a)) as [m Hm]; [now exists d|].
      apply nth_error_Some. congruence. }
  pose proof (component_classes _ _ _ _ _ _ _ _ _ _ _ H R U Cx Lv1) as F.
  eapply Forall2_weaken; [|exact F]. cbn. intros x cl Ci. eapply classes_in_steps; [exact S|exact (good_cored _ _ _ _ _ _ G1a)|exact Ci|exact Lv].
Qed.

(** The same CSS gets the same classes: in one rendering, in the next, in another component of
    the same manager. *)
Theorem component_same_classes : forall y e page l p ctx body p1 cls pas mi l' p2 ctx' body' p3 cls' pas' i j x,
  crun y e (prog_start page) l = Some p -> render_component y e ctx body p = Some (p1, cls, pas) ->
  existsb bunregisters body = false -> context_is (p_app p) (p_app p1) ctx mi ->
  crun y e p1 l' = Some p2 -> existsb cunregisters l' = false ->
  render_component y e ctx' body' p2 = Some (p3, cls', pas') ->
  existsb bunregisters body' = false -> context_is (p_app p2) (p_app p3) ctx' mi ->
  mlive (a_world (p_app p3)) mi ->
  nth_error (asks [] body) i = Some x -> nth_error (asks [] body') j = Some x ->
  exists cl, nth_error cls i = Some cl /\ nth_error cls' j = Some cl.
Proof.
  intros y e page l p ctx body p1 cls pas mi l' p2 ctx' body' p3 cls' pas' i j x H R U Cx H2 U2 R' U' Cx' Lv Xi Xj.
  pose proof (crun_render _ _ _ _ _ _ _ _ _ _ H R) as H1. pose proof (crun_app _ _ _ _ _ _ _ H1 H2) as H12.
  pose proof (crun_render _ _ _ _ _ _ _ _ _ _ H2 R') as H3.
  assert (U3 : existsb cunregisters (l' ++ [CRender ctx' body']) = false) by (rewrite existsb_app, U2; cbn; now rewrite U').
  pose proof (classes_stay _ _ _ _ _ _ _ _ _ _ _ _ _ H R U Cx H3 U3 Lv) as F.
  pose proof (component_classes _ _ _ _ _ _ _ _ _ _ _ H12 R' U' Cx' Lv) as F'.
  destruct (Forall2_nth_l _ _ _ _ _ F Xi) as (cl & Hc & C). destruct (Forall2_nth_l _ _ _ _ _ F' Xj) as (cl' & Hc' & C').
  exists cl. split; auto. rewrite Hc'. f_equal. symmetry.
  pose proof (crun_render _ _ _ _ _ _ _ _ _ _ H12 R') as H123. apply pgood_creached in H123. destruct H123 as (_ & G & _).
  eapply classes_in_fun; [exact (good_cored _ _ _ _ _ _ G)|exact C|exact C'].
Qed.
Print Assumptions component_same_classes.

(** A class names one CSS: two components that get the same class name asked for the same CSS. *)
Theorem component_class_one_css : forall y e page l p ctx body p1 cls pas mi l' p2 ctx' body' p3 cls' pas' mi' i j x x' id r r',
  crun y e (prog_start page) l = Some p -> render_component y e ctx body p = Some (p1, cls, pas) ->
  existsb bunregisters body = false -> context_is (p_app p) (p_app p1) ctx mi ->
  crun y e p1 l' = Some p2 -> existsb cunregisters l' = false ->
  render_component y e ctx' body' p2 = Some (p3, cls', pas') ->
  existsb bunregisters body' = false -> context_is (p_app p2) (p_app p3) ctx' mi' ->
  mlive (a_world (p_app p3)) mi -> mlive (a_world (p_app p3)) mi' ->
  cloaded l = [] -> bloaded body = [] -> cloaded l' = [] -> bloaded body' = [] ->
  ids_apart e page (w_draws (a_world (p_app p3))) ->
  nth_error (asks [] body) i = Some x -> nth_error (asks [] body') j = Some x' ->
  nth_error cls i = Some (id :: r) -> nth_error cls' j = Some (id :: r') ->
  snd x = snd x' /\ mi = mi'.
Proof.
  intros y e page l p ctx body p1 cls pas mi l' p2 ctx' body' p3 cls' pas' mi' i j x x' id r r' H R U Cx H2 U2 R' U' Cx' Lv Lv' Ld Lb Ld' Lb' Ap Xi Xj Ci Cj.
  pose proof (crun_render _ _ _ _ _ _ _ _ _ _ H R) as H1. pose proof (crun_app _ _ _ _ _ _ _ H1 H2) as H12.
  pose proof (crun_render _ _ _ _ _ _ _ _ _ _ H2 R') as H3. pose proof (crun_render _ _ _ _ _ _ _ _ _ _ H12 R') as H123.
  assert (U3 : existsb cunregisters (l' ++ [CRender ctx' body']) = false) by (rewrite existsb_app, U2; cbn; now rewrite U').
  pose proof (classes_stay _ _ _ _ _ _ _ _ _ _ _ _ _ H R U Cx H3 U3 Lv) as F.
  pose proof (component_classes _ _ _ _ _ _ _ _ _ _ _ H12 R' U' Cx' Lv') as F'.
  pose proof (Forall2_at _ _ _ _ _ _ F Xi Ci) as (m & cid & c & Hm & Rg & Hc & E).
  pose proof (Forall2_at _ _ _ _ _ _ F' Xj Cj) as (m' & cid' & c' & Hm' & Rg' & Hc' & E').
  injection E as E _. injection E' as E' _.
  assert (Ids : cloaded (((l ++ [CRender ctx body]) ++ l') ++ [CRender ctx' body']) = []).
  { rewrite !cloaded_app, Ld, Ld'. unfold cloaded. cbn [flat_map]. now rewrite Lb, Lb'. }
  apply pgood_creached in H123. rewrite Ids in H123. destruct H123 as (_ & G & _). destruct (gd_reach _ _ _ _ _ _ G) as (l0 & Re & El).
  pose proof (reaches_inv _ _ _ _ Re (ids_no_clash _ _ _ _ El Ap)) as I.
  pose proof (o_origin _ _ _ _ (good_core _ _ _ _ _ _ G) _ _ Hc) as Or.
  assert (Hy : c_hydrated c = false) by (destruct (c_hydrated c); [contradiction|reflexivity]).
  assert (Ec : cid = cid').
  { destruct (Nat.eq_dec cid cid') as [|N]; auto. exfalso. destruct (i_ids _ _ _ _ _ I) as [_ Un]. apply (Un cid cid' c c' Hc Hc' N Hy). congruence. }
  subst cid'. destruct Rg as (n & Hn & In1). destruct Rg' as (n' & Hn' & In2).
  destruct (i_reg _ _ _ _ _ I _ _ Hn) as (_ & _ & K). destruct (K _ _ In1) as (c1 & A1 & A2 & A3).
  destruct (i_reg _ _ _ _ _ I _ _ Hn') as (_ & _ & K'). destruct (K' _ _ In2) as (c2 & B1 & B2 & B3).
  rewrite A1 in B1. injection B1 as <-. rewrite A2 in B2. injection B2 as _ B2. split; congruence.
Qed.
Print Assumptions component_class_one_css.

(** ** C76: what a rendering takes and gives back *)

Lemma plain_starts e page ids mi p a h :
  fgood e page ids mi [] (mk_frame (mk_prog a p) h [] [] []) -> plain (a_world a) mi (mk_frame (mk_prog a p) h [] [] []).
Proof.
  intros _. split; cbn [f_prog f_sources f_passed p_app]; auto.
  - intros j mj L Hj. apply handle_lt in Hj. lia.
  - intros j [].
  - constructor.
  - exists 0. now rewrite app_nil_r.
Qed.

Lemma render_plain y e page ids ctx body p p1 cls pas :
  pgood e page ids p -> render_component y e ctx body p = Some (p1, cls, pas) -> plain_body [] body ->
  exists a h f mi m,
    context_manager e ctx (p_app p) = Some (a, h) /\ p1 = leave e f /\ cls = f_classes f /\ pas = f_passed f
    /\ brun y e (mk_frame (mk_prog a (p_cache p)) h [] [] []) body = Some f
    /\ context_is (p_app p) a ctx mi /\ nth_error (w_mgrs (a_world a)) mi = Some m /\ handle_of (w_mhandles (a_world a)) h = Some mi
    /\ fgood e page ids mi [] (mk_frame (mk_prog a (p_cache p)) h [] [] [])
    /\ fgood e page (ids ++ bloaded body) mi (flat_map makes body) f /\ f_manager f = h /\ plain (a_world a) mi f
    /\ p_cache (f_prog f) = p_cache p /\ a_globals (p_app (f_prog f)) = a_globals a /\ a_default (p_app (f_prog f)) = a_default a
    /\ Forall2 source_from (hands [] body) (f_passed f)
    /\ ((forall x, In x (asks [] body) -> exists cid, registered (a_world a) mi (mk_key false (m_prefix m) (snd x)) cid) ->
        w_draws (a_world (p_app (f_prog f))) = w_draws (a_world a) /\ nothing_new (a_world a) (a_world (p_app (f_prog f)))).
Proof.
  intros P H Pb. unfold render_component in H. destruct (context_manager e ctx (p_app p)) as [[a h]|] eqn:C; [|discriminate].
  destruct (frame_starts _ _ _ _ _ _ _ P C) as (mi & Cx & F).
  destruct (brun y e _ body) as [f|] eqn:B; [|discriminate]. injection H as <- <- <-.
  destruct (brun_good _ _ _ _ _ _ _ _ _ F B) as (F1 & Em & _). cbn [f_manager List.app] in *.
  pose proof (plain_starts _ _ _ _ _ _ _ F) as Pl.
  destruct (fg_live _ _ _ _ _ _ F h) as [Hh _]; [now left|]. cbn [f_prog p_app] in Hh.
  pose proof (fg_prog _ _ _ _ _ _ F) as (_ & Ga & _). cbn [f_prog p_app] in Ga.
  destruct (mlive_mgr e (a_world a) mi (good_cored _ _ _ _ _ _ Ga)) as [m Hm]; [now exists h|].
  destruct (plain_brun y e page (a_world a) mi m body _ _ _ _ F Pl (steps_refl _ _) Hm (handle_lt _ _ _ Hh) Pb B)
    as (P1 & Ek & Eg & Ed & (lp & Ep & Fp) & Ru).
  cbn [f_prog f_passed p_app p_cache List.app] in *. exists a, h, f, mi, m. subst lp. repeat (split; [assumption || reflexivity|]). exact Ru.
Qed.

Lemma context_frame e page ids ctx a a1 h :
  app_good e page ids a -> context_manager e ctx a = Some (a1, h) ->
  w_handles (a_world a1) = w_handles (a_world a) /\ w_draws (a_world a1) = w_draws (a_world a) /\ same_styles (a_world a) (a_world a1)
  /\ List.length (w_mhandles (a_world a)) <= h
  /\ (forall j mi, handle_of (w_mhandles (a_world a)) j = Some mi -> handle_of (w_mhandles (a_world a1)) j = Some mi)
  /\ (forall j mi, handle_of (w_mhandles (a_world a1)) j = Some mi ->
        j = h \/ handle_of (w_mhandles (a_world a)) j = Some mi \/ ctx = None /\ a_default a = None /\ a_default a1 = Some j)
  /\ (ctx <> None -> a_default a1 = a_default a).
Proof.
  intros G C. pose proof (context_fresh _ _ _ _ _ C) as [_ Fh]. pose proof (fun j => kept_context e ctx a a1 h j C) as Kp.
  destruct ctx as [d|]; cbn [context_manager] in C.
  - destruct (Manager.step e (a_world a) (OCloneManager d)) as [w [x| | | | |]] eqn:S; try discriminate. injection C as <- <-.
    destruct (clone_frame _ _ _ _ _ S) as (F1 & F2 & F3 & F4 & mj & F5 & F6). cbn [a_world with_world a_default] in *.
    split; auto. split; auto. split; auto. split; [lia|]. split; [intros j mi; apply Kp|]. split; auto.
    intros j mi Hj. rewrite F6, handle_app_eq in Hj. destruct (Nat.eqb_spec j (List.length (w_mhandles (a_world a)))) as [E|N]; [left; lia|right; left; exact Hj].
  - destruct (default_frame _ _ _ _ _ _ G C) as (G1 & Eg & S & Hs & Dr & Ss & Hn & dd & mi & E1 & E2 & E3 & E4 & E5).
    split; auto. split; auto. split; auto. split; auto. split; [intros j mj; apply Kp|]. split; [|congruence].
    intros j mj Hj. destruct (Nat.eq_dec j h) as [->|N1]; [now left|]. right. destruct (Nat.eq_dec j dd) as [->|N2].
    + destruct E4 as [[E4 E6]|[E4 E6]]; [left; congruence|right; auto].
    + left. rewrite <- E5; auto.
Qed.

Lemma gives_back_good y e page ids p ctx body p1 cls pas mi :
  pgood e page ids p -> render_component y e ctx body p = Some (p1, cls, pas) -> plain_body [] body ->
  context_is (p_app p) (p_app p1) ctx mi ->
  let w := a_world (p_app p) in let w1 := a_world (p_app p1) in
  (forall h mj, owns w h mj -> owns w1 h mj)
  /\ (forall h mj, owns w1 h mj ->
        owns w h mj
        \/ ctx = None /\ a_default (p_app p) = None /\ a_default (p_app p1) = Some h
        \/ mj = mi /\ exists src, In src pas /\ s_manager src = Some h)
  /\ Forall2 (fun x src => s_sheet src = snd x /\ s_location src = fst x
                 /\ exists h, s_manager src = Some h /\ owns w1 h mi /\ forall mj, ~ owns w h mj) (hands [] body) pas
  /\ (forall x cid, handle_of (w_handles w1) x = Some cid <-> handle_of (w_handles w) x = Some cid)
  /\ p_cache p1 = p_cache p /\ a_globals (p_app p1) = a_globals (p_app p).
Proof.
  intros H R Pb Cx w w1. pose proof H as (_ & Ga & _).
  destruct (render_plain _ _ _ _ _ _ _ _ _ _ H R Pb) as (a & h & f & mi' & m & C & -> & -> & -> & B & Cx' & Hm & Hh & F0 & F & Em & Pl & Ek & Eg & Ed & Hp & _).
  destruct (context_frame _ _ _ _ _ _ _ Ga C) as (K1 & K2 & K3 & K4 & K5 & K6 & K7).
  destruct (leave_spec _ _ _ _ _ _ F) as (L1 & L2 & L3 & L4 & L5 & L6 & L7 & L8 & _). cbv zeta in *.
  destruct Pl as [P1 P2 P3 P4 P5 [n P6]]. subst h. fold w in K4.
  assert (Fm : frame_handles f = f_manager f :: sources_handles (f_sources f)) by reflexivity.
  pose proof (handle_lt _ _ _ Hh) as Lf.
  assert (Nl : forall j, j <> f_manager f -> j < List.length (w_mhandles (a_world a)) -> handle_of (w_mhandles w1) j = handle_of (w_mhandles (a_world a)) j).
  { intros j Nj Lj. subst w1. rewrite L8; auto. rewrite Fm. intros [X|X]; [congruence|].
    destruct (P4 j) as [X1 _]; [apply in_or_app; now left|]. lia. }
  assert (Emi : mi = mi').
  { destruct ctx as [c|]; cbn [context_is] in Cx, Cx'; [congruence|]. destruct Cx as (d & D1 & D2), Cx' as (d' & D1' & D2').
    rewrite L3, Ed in D1. assert (d' = d) by congruence. subst d'. change (handle_of (w_mhandles w1) d = Some mi) in D2.
    assert (Nd : d <> f_manager f).
    { intros ->. subst w1. rewrite L7 in D2 by (rewrite Fm; now left). discriminate. }
    rewrite Nl in D2; [congruence|auto|]. apply handle_lt in D2'. exact D2'. }
  subst mi'. split; [|split; [|split; [|split; [|split]]]].
  - intros j mj Hj. unfold owns in *. pose proof (handle_lt _ _ _ Hj) as Lj. rewrite Nl; [now apply K5|lia|]. apply K5 in Hj. now apply handle_lt in Hj.
  - intros j mj Hj. unfold owns in *.
    assert (Nj : ~ In j (frame_handles f)) by (intros X; subst w1; rewrite L7 in Hj by exact X; discriminate).
    subst w1. rewrite L8 in Hj by exact Nj. destruct (Nat.lt_ge_cases j (List.length (w_mhandles (a_world a)))) as [Lj|Lj].
    + rewrite P2 in Hj by exact Lj. destruct (K6 _ _ Hj) as [X|[X|(X1 & X2 & X3)]].
      * elim Nj. rewrite Fm. now left.
      * now left.
      * right. left. split; auto. split; auto. rewrite L3, Ed. exact X3.
    + right. right. pose proof (P3 _ _ Lj Hj) as I. pose proof (P4 _ I) as [_ I4]. split; [congruence|]. apply in_app_or in I. destruct I as [I|I]; [elim Nj; rewrite Fm; now right|].
      unfold passed_handles in I. apply in_flat_map in I. destruct I as (src & I & J). exists src. split; auto.
      unfold source_handles in J. destruct (s_manager src); [|contradiction]. destruct J as [->|[]]. reflexivity.
  - assert (Q : forall src, In src (f_passed f) -> forall j, s_manager src = Some j -> owns w1 j mi /\ forall mj, ~ owns w j mj).
    { intros src I j Ej. assert (J : In j (passed_handles f)).
      { unfold passed_handles. apply in_flat_map. exists src. split; auto. unfold source_handles. rewrite Ej. now left. }
      destruct (P4 j) as [X1 X2]; [apply in_or_app; now right|]. split.
      - unfold owns. subst w1. rewrite L8; auto. rewrite Fm. intros [Y|Y]; [lia|].
        clear - P5 J Y. induction (sources_handles (f_sources f)) as [|b lb IH]; [contradiction|]. cbn [List.app] in P5. inversion P5 as [|? ? N1 N2]; subst.
        destruct Y as [->|Y]; [apply N1, in_or_app; now right|auto].
      - intros mj Hj. unfold owns in Hj. apply K5 in Hj. apply handle_lt in Hj. lia. }
    clear - Hp Q. revert Q. induction Hp as [|x src lx ls (S1 & S2 & S3) Hp IH]; intros Q; constructor.
    + split; auto. split; auto. destruct (s_manager src) as [j|] eqn:Ej; [|easy]. exists j. split; auto. apply (Q src); [now left|exact Ej].
    + apply IH. intros src' I. apply Q. now right.
  - intros x cid. subst w1. rewrite L5, P6, K1. unfold handle_of. destruct (Nat.lt_ge_cases x (List.length (w_handles w))) as [Lx|Lx].
    + rewrite nth_error_app1 by exact Lx. reflexivity.
    + rewrite nth_error_app2 by exact Lx. rewrite (proj2 (nth_error_None (w_handles w) x)) by exact Lx.
      destruct (nth_error (repeat None n) _) as [o|] eqn:E; [|reflexivity]. apply nth_error_In, repeat_spec in E. now subst o.
  - exact Ek.
  - rewrite L2, Eg. eapply context_globals; eauto.
Qed.

(** A function that only uses [css!], whatever it asks for: every manager that was owned still is;
    new owners are only the sources handed on, which belong to the manager of the context, and,
    the first time, the default manager.  The handles of styles are those of before. *)
Theorem component_gives_back : forall y e page l p ctx body p1 cls pas mi,
  crun y e (prog_start page) l = Some p -> render_component y e ctx body p = Some (p1, cls, pas) -> plain_body [] body ->
  context_is (p_app p) (p_app p1) ctx mi ->
  let w := a_world (p_app p) in let w1 := a_world (p_app p1) in
  (forall h mj, owns w h mj -> owns w1 h mj)
  /\ (forall h mj, owns w1 h mj ->
        owns w h mj
        \/ ctx = None /\ a_default (p_app p) = None /\ a_default (p_app p1) = Some h
        \/ mj = mi /\ exists src, In src pas /\ s_manager src = Some h)
  /\ Forall2 (fun x src => s_sheet src = snd x /\ s_location src = fst x
                 /\ exists h, s_manager src = Some h /\ owns w1 h mi /\ forall mj, ~ owns w h mj) (hands [] body) pas
  /\ (forall x cid, handle_of (w_handles w1) x = Some cid <-> handle_of (w_handles w) x = Some cid)
  /\ p_cache p1 = p_cache p /\ a_globals (p_app p1) = a_globals (p_app p).
Proof. intros y e page l p ctx body p1 cls pas mi H R Pb Cx. apply pgood_creached in H. eapply gives_back_good; eauto. Qed.
Print Assumptions component_gives_back.

Lemma plain_unregisters body : plain_body [] body -> existsb bunregisters body = false.
Proof.
  generalize (@nil bool). induction body as [|o b IH]; intros left Pb; auto. cbn [existsb].
  destruct o; cbn [plain_body bunregisters] in *; [eauto|destruct Pb; eauto|destruct Pb; eauto|contradiction].
Qed.
Lemma reuses_good y e page ids p ctx body p1 cls pas mi cls0 :
  pgood e page ids p -> render_component y e ctx body p = Some (p1, cls, pas) -> plain_body [] body ->
  context_is (p_app p) (p_app p1) ctx mi ->
  Forall2 (classes_in (a_world (p_app p)) mi) (asks [] body) cls0 ->
  cls = cls0 /\ w_draws (a_world (p_app p1)) = w_draws (a_world (p_app p))
  /\ nothing_new (a_world (p_app p)) (a_world (p_app p1)).
Proof.
  intros G R Pb Cx F.
  pose proof (gives_back_good _ _ _ _ _ _ _ _ _ _ _ G R Pb Cx) as (Ow & _). cbv zeta in Ow.
  pose proof (plain_unregisters _ Pb) as U. pose proof G as (_ & Ga & _).
  destruct (render_good _ _ _ _ _ _ _ _ _ _ G R) as [(_ & G1 & _) Rg]. destruct (Rg U) as (St & _).
  destruct (render_plain _ _ _ _ _ _ _ _ _ _ G R Pb) as (a & h & f & mi' & m & C & -> & -> & -> & B & Cx' & Hm & Hh & F0 & Fg & Em & Pl & Ek & Eg & Ed & Hp & Ru).
  destruct (context_frame _ _ _ _ _ _ _ Ga C) as (K1 & K2 & K3 & K4 & K5 & K6 & K7).
  destruct (leave_spec _ _ _ _ _ _ Fg) as (L1 & L2 & L3 & L4 & L5 & L6 & L7 & L8 & L9). cbv zeta in *.
  assert (Cx1 : context_is (p_app p) (p_app (leave e f)) ctx mi') .
  { destruct ctx as [c|]; [exact Cx'|]. destruct Cx' as (d & D1 & D2). exists d. split; [rewrite L3, Ed; exact D1|].
    rewrite L8.
    - rewrite (pl_old _ _ _ Pl); [exact D2|now apply handle_lt in D2].
    - pose proof (fg_live _ _ _ _ _ _ Fg d) as X. intros I. apply X in I. destruct I as [_ I]. apply I. apply manager_handles_in. left. congruence. }
  assert (mi' = mi) by (symmetry; eapply context_same; eauto). subst mi'.
  destruct Ru as [Rd Rn].
  { intros x I. apply In_nth_error in I. destruct I as [i I]. destruct (Forall2_nth_l _ _ _ _ _ F I) as (cl & _ & m' & cid & c & A1 & A2 & _).
    exists cid. destruct (steps_context _ _ _ _ _ C) as (S0 & _). destruct (steps_like _ _ _ _ _ S0 A1) as (m2 & A3 & A4 & _). rewrite Hm in A3. injection A3 as <-.
    rewrite A4. now apply K3. }
  assert (Nn : nothing_new (a_world (p_app p)) (a_world (p_app (leave e f)))).
  { eapply nothing_new_trans; [apply nothing_new_same; exact K3|]. eapply nothing_new_trans; [exact Rn|]. apply nothing_new_same, L9.
    intros mj [j Hj]. destruct (in_dec Nat.eq_dec j (frame_handles f)) as [I|N].
    - destruct (fg_live _ _ _ _ _ _ Fg j I) as [X _]. rewrite Hj in X. injection X as ->.
      destruct ctx as [c|]; cbn [context_is] in Cx1.
      + exists c. apply Ow. exact Cx1.
      + destruct Cx1 as (d & _ & D2). now exists d.
    - exists j. rewrite L8; auto. }
  split; [|split; [congruence|exact Nn]].
  assert (Lv : mlive (a_world (p_app (leave e f))) mi).
  { destruct ctx as [c|]; cbn [context_is] in Cx1; [exists c; apply Ow; exact Cx1|]. destruct Cx1 as (d & _ & D2). now exists d. }
  pose proof (classes_good _ _ _ _ _ _ _ _ _ _ _ G R U Cx1 Lv) as F1.
  assert (F2 : Forall2 (classes_in (a_world (p_app (leave e f))) mi) (asks [] body) cls0).
  { eapply Forall2_weaken; [|exact F]. cbn. intros x cl Ci. eapply classes_in_steps; [exact St|exact (good_cored _ _ _ _ _ _ Ga)|exact Ci|exact Lv]. }
  clear - F1 F2 G1. revert cls0 F2. induction F1 as [|x cl lx lc H1 F1 IH]; intros cls0 F2; inversion F2; subst; auto. f_equal; auto.
  eapply classes_in_fun; [exact (good_cored _ _ _ _ _ _ G1)|exact H1|assumption].
Qed.

(** Rendered again: if the styles for its CSS are there, the component gets their classes, and
    nothing is made, written, removed or drawn. *)
Theorem component_reuses : forall y e page l p ctx body p1 cls pas mi cls0,
  crun y e (prog_start page) l = Some p -> render_component y e ctx body p = Some (p1, cls, pas) -> plain_body [] body ->
  context_is (p_app p) (p_app p1) ctx mi ->
  Forall2 (classes_in (a_world (p_app p)) mi) (asks [] body) cls0 ->
  cls = cls0 /\ w_draws (a_world (p_app p1)) = w_draws (a_world (p_app p))
  /\ nothing_new (a_world (p_app p)) (a_world (p_app p1)).
Proof. intros y e page l p ctx body p1 cls pas mi cls0 H R Pb Cx F. apply pgood_creached in H. eapply reuses_good; eauto. Qed.
Print Assumptions component_reuses.

Lemma context_settles e page ids p ctx prefix :
  pgood e page ids p -> can_style e page p ctx prefix ->
  exists a h mi m, context_manager e ctx (p_app p) = Some (a, h) /\ context_is (p_app p) a ctx mi
    /\ nth_error (w_mgrs (a_world a)) mi = Some m /\ m_prefix m = prefix /\ settles e page m.
Proof.
  intros H Cs. pose proof H as (K & Ga & D).
  destruct ctx as [c|]; cbn [can_style context_manager context_is] in *.
  - destruct Cs as (mi & m & O & Hm & St & Ep). unfold owns in O. cbn [Manager.step]. unfold clone_manager. rewrite O.
    eexists _, _, mi, _. split; [reflexivity|]. split; auto. cbn. rewrite nth_upd, Nat.eqb_refl, Hm. cbn. split; [reflexivity|]. split; [auto|exact St].
  - destruct Cs as [Cs Ep]. assert (Hd : has_default e p).
    { destruct Cs as [Cs|(A1 & k & A2 & A3)]; [now right; left|]. right. right. split; auto. congruence. }
    apply (has_default_iff _ _ _ _ H) in Hd. destruct (default_manager e (p_app p)) as [[a h]|] eqn:E; [|easy].
    pose proof (pgood_context e page _ p None a h H E) as (_ & _ & D1). cbn [p_app] in D1.
    destruct (default_frame _ _ _ _ _ _ Ga E) as (_ & _ & _ & _ & _ & _ & _ & d & mi & E1 & E2 & _).
    destruct (D1 d E1) as (mj & m & F1 & F2 & F3 & F4 & F5 & F6). rewrite E2 in F1. injection F1 as <-.
    exists a, h, mi, m. split; auto. split; [exists d; auto|]. split; auto. split; [congruence|].
    destruct Cs as [Cs|(A1 & k & A2 & A3)]; [now right; left|]. destruct (e_wasm e) eqn:W; [|right; left; exact W].
    right. right. split; auto. split; auto. exists k. split; auto. congruence.
Qed.
Lemma never_panics_good y e page ids p ctx body prefix :
  pgood e page ids p -> plain_body [] body ->
  can_style e page p ctx prefix ->
  (forall x, In x (asks [] body) -> rereads e (mk_key false prefix (snd x))) ->
  exists p1 cls pas, render_component y e ctx body p = Some (p1, cls, pas).
Proof.
  intros H Pb Cs Rr. pose proof (context_settles _ _ _ _ _ _ H Cs) as Z.
  destruct Z as (a & h & mi & m & C & Cx & Hm & Ep & St). unfold render_component. rewrite C.
  destruct (frame_starts _ _ _ _ _ _ _ H C) as (mi' & Cx' & F). assert (mi' = mi) by (eapply context_same; eauto). subst mi'.
  subst prefix.
  destruct (plain_progress y e page (a_world a) mi m body _ _ _ F (steps_refl _ _) Hm St Rr Pb) as [f ->]. eauto.
Qed.

(** A function that only uses [css!] is rendered without a panic. *)
Theorem component_never_panics : forall y e page l p ctx body prefix,
  crun y e (prog_start page) l = Some p -> plain_body [] body ->
  can_style e page p ctx prefix ->
  (forall x, In x (asks [] body) -> rereads e (mk_key false prefix (snd x))) ->
  exists p1 cls pas, render_component y e ctx body p = Some (p1, cls, pas).
Proof. intros y e page l p ctx body prefix H Pb Cs Rr. apply pgood_creached in H. eapply never_panics_good; eauto. Qed.
Print Assumptions component_never_panics.

(** ** C77: what the page says for the classes *)

Lemma classes_say e page p mi m k loc s s' cl :
  pgood e page [] p -> classes_in (a_world (p_app p)) mi (loc, s) cl ->
  nth_error (w_mgrs (a_world (p_app p))) mi = Some m -> m_data m = None -> m_container m = Some k -> in_document page k ->
  plain_prefix (m_prefix m) -> e_wasm e = true -> e_document e = true ->
  names_fresh e page (w_draws (a_world (p_app p))) ->
  (forall class, to_style_str class s = to_style_str class s') -> closed_sheet s' ->
  exists id, cl = id :: match loc with Some l => [l] | None => [] end
    /\ page_says (a_world (p_app p)) id (sheet_decls (Some id) s').
Proof.
  intros (_ & G & _) (m' & cid & c & Hm' & Rg & Hc & ->) Hm Md Mc Ic Pp W Dc F Es Cl. rewrite Hm in Hm'. injection Hm' as <-. cbn [fst snd] in *.
  exists (c_id c). split; [reflexivity|]. destruct (gd_reach _ _ _ _ _ _ G) as (l0 & Re & El).
  pose proof (good_core _ _ _ _ _ _ G) as Co.
  pose proof (o_origin _ _ _ _ Co _ _ Hc) as Or. destruct (c_hydrated c) eqn:Hy; [contradiction|]. destruct Or as (n & Ln & Id).
  pose proof Rg as (m' & Hm' & In1). destruct (o_reg _ _ _ _ Co _ _ Hm') as (_ & _ & Kx). destruct (Kx _ _ In1) as (c' & A1 & A2 & A3).
  rewrite Hc in A1. injection A1 as <-.
  pose proof (fresh_plain _ _ _ F) as Pl. destruct F as [Dr Ap].
  assert (Tx : c_text c = to_style_str (Some (c_id c)) s).
  { destruct (o_content _ _ _ _ Co _ _ Hc) as [_ ->]. unfold text_of. rewrite Hy, A2. reflexivity. }
  assert (T : texts_of (c_id c) (w_dom (a_world (p_app p))) = [c_text c]).
  { apply (in_document_exactly_while_alive e page l0 (a_world (p_app p)) cid c k); auto.
    - now apply ids_no_clash.
    - split; [exact Hy|]. exists m. now rewrite A3.
    - rewrite Id, A2. apply plain_prefix_plain_id; auto. apply Pp.
    - right. eauto. }
  rewrite Tx, Es in T. destruct (rendered_css_reads_back (Some (c_id c)) s') as (items & I1 & I2); auto.
  { cbn. rewrite Id, A2. cbn [k_global k_prefix]. apply id_boring; auto. apply Pp. }
  exists (to_style_str (Some (c_id c)) s'), items. auto.
Qed.

(** From the rendering on, as long as the manager lives and nothing is unregistered by hand, the
    page says for each class what the CSS says that was asked for. *)
Theorem component_takes_effect : forall y e page l p ctx body p1 cls pas mi l' p2 m k i loc s s' cl,
  crun y e (prog_start page) l = Some p -> render_component y e ctx body p = Some (p1, cls, pas) ->
  existsb bunregisters body = false -> context_is (p_app p) (p_app p1) ctx mi ->
  crun y e p1 l' = Some p2 -> existsb cunregisters l' = false -> mlive (a_world (p_app p2)) mi ->
  cloaded l = [] -> bloaded body = [] -> cloaded l' = [] ->
  nth_error (w_mgrs (a_world (p_app p2))) mi = Some m -> m_data m = None -> m_container m = Some k -> in_document page k ->
  plain_prefix (m_prefix m) -> e_wasm e = true -> e_document e = true ->
  names_fresh e page (w_draws (a_world (p_app p2))) ->
  nth_error (asks [] body) i = Some (loc, s) -> nth_error cls i = Some cl ->
  (forall class, to_style_str class s = to_style_str class s') -> closed_sheet s' ->
  exists id, cl = id :: match loc with Some l => [l] | None => [] end
    /\ page_says (a_world (p_app p2)) id (sheet_decls (Some id) s').
Proof.
  intros y e page l p ctx body p1 cls pas mi l' p2 m k i loc s s' cl H R U Cx H2 U2 Lv Ld Lb Ld' Hm Md Mc Ic Pp W Dc F Xi Ci Es Cl.
  pose proof (classes_stay _ _ _ _ _ _ _ _ _ _ _ _ _ H R U Cx H2 U2 Lv) as Fa.
  pose proof (Forall2_at _ _ _ _ _ _ Fa Xi Ci) as Fi.
  pose proof (crun_app _ _ _ _ _ _ _ (crun_render _ _ _ _ _ _ _ _ _ _ H R) H2) as H12.
  assert (Ids : cloaded ((l ++ [CRender ctx body]) ++ l') = []).
  { rewrite !cloaded_app, Ld, Ld'. unfold cloaded. cbn [flat_map]. now rewrite Lb. }
  apply pgood_creached in H12. rewrite Ids in H12. eapply classes_say; eauto.
Qed.
Print Assumptions component_takes_effect.

(** The CSS a macro stands for, literal or inline, each time it is run. *)
Theorem macro_renders_what_it_says : forall lit_value expr_of input g envs vs i rho v s,
  sheet_macro lit_value expr_of input = Some g ->
  evaluate_all None envs g = Some vs -> nth_error envs i = Some rho -> nth_error vs i = Some v ->
  macro_says lit_value expr_of rho input s ->
  forall class, to_style_str class (erase_sheet v) = to_style_str class s.
Proof.
  intros lv ex input g envs vs i rho v s M V Hr Hv Sy class.
  destruct Sy as [t rest css sh args s Hl Hp Ha Fl|input items s N Rd Sy].
  - cbn [sheet_macro] in M. destruct (lit_macro lv (RLit t :: rest)) as [g'| |] eqn:E; try discriminate. injection M as ->.
    destruct (literal_macro_substitutes lv (RLit t) rest css sh args g Hl Hp Ha E envs) as (vs' & V' & Al).
    rewrite V in V'. injection V' as <-. destruct (Forall2_at _ _ _ _ _ _ Al Hr Hv) as (sh2 & _ & Un & Tx). now rewrite <- (Un s Fl) in Tx.
  - assert (E : inline_macro ex input = IExpands g).
    { unfold sheet_macro in M. destruct input as [|[] rest]; try (destruct (inline_macro ex _) eqn:E; try discriminate; now injection M as ->). now elim (N _ _ eq_refl). }
    destruct (inline_macro_sheet ex input items Rd) as (g' & E' & Q). rewrite E in E'. injection E' as <-.
    destruct (Q envs) as (vs' & V' & Al). rewrite V in V'. injection V' as <-. destruct (Forall2_at _ _ _ _ _ _ Al Hr Hv) as (s2 & S2 & _ & Tx).
    assert (s2 = s) by (eapply inline_sheet_unique; eauto). now subst s2.
Qed.
Print Assumptions macro_renders_what_it_says.

(** Which invocations compile. *)
Theorem macro_accepts_iff : forall lit_value expr_of input,
  (exists g, sheet_macro lit_value expr_of input = Some g) <-> macro_accepts lit_value expr_of input.
Proof.
  intros lv ex input.
  assert (L : forall t rest, (exists g, sheet_macro lv ex (RLit t :: rest) = Some g) <-> exists g, lit_macro lv (RLit t :: rest) = Expands g).
  { intros t rest. cbn [sheet_macro]. split; intros [g H].
    - destruct (lit_macro lv (RLit t :: rest)) as [g'| |]; try discriminate. eauto.
    - rewrite H. eauto. }
  assert (I : forall input, (forall t rest, input <> RLit t :: rest) ->
              (exists g, sheet_macro lv ex input = Some g) <-> exists g, inline_macro ex input = IExpands g).
  { clear input. intros input N. assert (E : sheet_macro lv ex input = match inline_macro ex input with IExpands g => Some g | _ => None end).
    { destruct input as [|[] rest]; try reflexivity. now elim (N _ _ eq_refl). }
    rewrite E. split; intros [g H].
    - destruct (inline_macro ex input); try discriminate. eauto.
    - rewrite H. eauto. }
  split.
  - intros H. assert (D : (exists t rest, input = RLit t :: rest) \/ forall t rest, input <> RLit t :: rest).
    { destruct input as [|[] rest]; try (right; discriminate). left. eauto. }
    destruct D as [(t & rest & ->)|N].
    + apply L, literal_macro_accepts_iff in H. destruct H as (first & rest' & css & sh & args & E & A & B & C & D & F & G).
      injection E as <- <-. econstructor; eauto.
    + apply (I _ N), inline_macro_accepts_iff in H. destruct H as [items H]. econstructor 2; eauto.
  - intros [t rest css sh args A B C D F G|input' items N R].
    + apply L, literal_macro_accepts_iff. exists (RLit t), rest, css, sh, args. auto 10.
    + apply (I _ N), inline_macro_accepts_iff. eauto.
Qed.
Print Assumptions macro_accepts_iff.

(** Both together: [css!] in a styled component, each time the component is rendered. *)
Theorem component_macro_takes_effect :
  forall lit_value expr_of input g envs vs n rho v s' y e page l p ctx body p1 cls pas mi l' p2 m k i loc cl,
  sheet_macro lit_value expr_of input = Some g ->
  evaluate_all None envs g = Some vs -> nth_error envs n = Some rho -> nth_error vs n = Some v ->
  macro_says lit_value expr_of rho input s' -> closed_sheet s' ->
  crun y e (prog_start page) l = Some p -> render_component y e ctx body p = Some (p1, cls, pas) ->
  existsb bunregisters body = false -> context_is (p_app p) (p_app p1) ctx mi ->
  crun y e p1 l' = Some p2 -> existsb cunregisters l' = false -> mlive (a_world (p_app p2)) mi ->
  cloaded l = [] -> bloaded body = [] -> cloaded l' = [] ->
  nth_error (w_mgrs (a_world (p_app p2))) mi = Some m -> m_data m = None -> m_container m = Some k -> in_document page k ->
  plain_prefix (m_prefix m) -> e_wasm e = true -> e_document e = true ->
  names_fresh e page (w_draws (a_world (p_app p2))) ->
  nth_error (asks [] body) i = Some (loc, erase_sheet v) -> nth_error cls i = Some cl ->
  exists id, cl = id :: match loc with Some l => [l] | None => [] end
    /\ page_says (a_world (p_app p2)) id (sheet_decls (Some id) s').
Proof.
  intros lv ex input g envs vs n rho v s' y e page l p ctx body p1 cls pas mi l' p2 m k i loc cl M V Hr Hv Sy Cl.
  intros. eapply (component_takes_effect y e page l p ctx body p1 cls pas mi l' p2 m k i loc (erase_sheet v) s' cl); eauto.
  eapply macro_renders_what_it_says; eauto.
Qed.
Print Assumptions component_macro_takes_effect.

(** ** A component, rendered twice, with other code between and inside *)

Definition card_at : option str := Some (lit "Card-card_rs-12").
Definition card : list bop :=
  [BCss card_at (PropsManager.demo_sheet "red"); BCss None (PropsManager.demo_sheet "blue"); BCss None (PropsManager.demo_sheet "red");
   BClasses 1; BClasses 0; BPass 2].
Definition busy_card : list bop :=
  [BCss None (PropsManager.demo_sheet "blue"); BDo (PApp (AOp (OBuild (lit "inner") (Some 1) true false)));
   BClasses 0; BDo (PCall None (SNew (CSheet (PropsManager.demo_sheet "lime"))))].
Definition shop_ops : list cop := map CDo shop.
Definition card_result := render_component shop_yew demo_env None card shop_prog.
Definition card_prog : prog := match card_result with Some (p, _, _) => p | None => shop_prog end.
Definition card_passed : list source := match card_result with Some (_, _, l) => l | None => [] end.
Definition card_classes : list (list str) :=
  [[lit "stylist-style-2"]; [lit "stylist-style-0"; lit "Card-card_rs-12"]].
Definition busy_result := render_component shop_yew demo_env None busy_card card_prog.
Definition busy_prog : prog := match busy_result with Some (p, _, _) => p | None => shop_prog end.
Definition again_result := render_component shop_yew demo_env None card busy_prog.
Definition again_prog : prog := match again_result with Some (p, _, _) => p | None => shop_prog end.
Definition again_passed : list source := match again_result with Some (_, _, l) => l | None => [] end.

Lemma shop_ops_run : crun shop_yew demo_env (prog_start demo_page) shop_ops = Some shop_prog /\ cloaded shop_ops = [].
Proof. split; vm_compute; reflexivity. Qed.
Lemma card_renders : render_component shop_yew demo_env None card shop_prog = Some (card_prog, card_classes, card_passed).
Proof. vm_compute. reflexivity. Qed.
Lemma busy_renders : render_component shop_yew demo_env None busy_card card_prog = Some (busy_prog, [[lit "stylist-style-2"]], []).
Proof. vm_compute. reflexivity. Qed.
Lemma again_renders : render_component shop_yew demo_env None card busy_prog = Some (again_prog, card_classes, again_passed).
Proof. vm_compute. reflexivity. Qed.
Lemma card_run : crun shop_yew demo_env (prog_start demo_page) (shop_ops ++ [CRender None card]) = Some card_prog.
Proof. exact (crun_render _ _ _ _ _ _ _ _ _ _ (proj1 shop_ops_run) card_renders). Qed.
Lemma busy_run : crun shop_yew demo_env (prog_start demo_page) ((shop_ops ++ [CRender None card]) ++ [CRender None busy_card]) = Some busy_prog.
Proof. exact (crun_render _ _ _ _ _ _ _ _ _ _ card_run busy_renders). Qed.
Lemma busy_step : crun shop_yew demo_env card_prog [CRender None busy_card] = Some busy_prog.
Proof. cbn [crun cstep]. now rewrite busy_renders. Qed.
Lemma card_context :
  context_is (p_app shop_prog) (p_app card_prog) None 1 /\ context_is (p_app card_prog) (p_app busy_prog) None 1
  /\ context_is (p_app busy_prog) (p_app again_prog) None 1
  /\ mlive (a_world (p_app card_prog)) 1 /\ mlive (a_world (p_app busy_prog)) 1 /\ mlive (a_world (p_app again_prog)) 1.
Proof. repeat split; exists 1; vm_compute; try split; reflexivity. Qed.
Lemma card_plain : plain_body [] card. Proof. repeat split; reflexivity. Qed.

(** The body of the second one does other things: it builds a manager and calls [Style::new]. *)
Example component_classes_ex :
  Forall2 (classes_in (a_world (p_app busy_prog)) 1) [(None, PropsManager.demo_sheet "blue")] [[lit "stylist-style-2"]].
Proof.
  destruct card_context as (_ & C & _ & _ & L & _).
  exact (component_classes _ _ _ _ _ _ _ _ _ _ _ card_run busy_renders eq_refl C L).
Qed.

(** ... and gets for ["blue"] the class the first one got. *)
Example component_same_classes_ex : exists cl, nth_error card_classes 0 = Some cl /\ nth_error [[lit "stylist-style-2"]] 0 = Some cl.
Proof.
  destruct card_context as (C1 & C2 & _ & L1 & L2 & _).
  exact (component_same_classes shop_yew demo_env demo_page shop_ops shop_prog None card card_prog card_classes card_passed 1 [] card_prog
    None busy_card busy_prog [[lit "stylist-style-2"]] [] 0 0 (None, PropsManager.demo_sheet "blue")
    (proj1 shop_ops_run) card_renders eq_refl C1 eq_refl eq_refl busy_renders eq_refl C2 L2 eq_refl eq_refl).
Qed.

Lemma card_ids n : n <= 100 -> ids_apart demo_env demo_page n.
Proof. intros L. exact (proj2 (names_fresh_ex n L)). Qed.
Lemma card_draws : w_draws (a_world (p_app card_prog)) = 3 /\ w_draws (a_world (p_app busy_prog)) = 4 /\ w_draws (a_world (p_app again_prog)) = 4.
Proof. split; [|split]; vm_compute; reflexivity. Qed.

Example component_class_one_css_ex : forall i j x x' id r r',
  nth_error (asks [] card) i = Some x -> nth_error (asks [] busy_card) j = Some x' ->
  nth_error card_classes i = Some (id :: r) -> nth_error [[lit "stylist-style-2"]] j = Some (id :: r') -> snd x = snd x' /\ 1 = 1.
Proof.
  intros i j x x' id r r'. destruct card_context as (C1 & C2 & _ & L1 & L2 & _).
  refine (component_class_one_css shop_yew demo_env demo_page shop_ops shop_prog None card card_prog card_classes card_passed 1 [] card_prog
    None busy_card busy_prog [[lit "stylist-style-2"]] [] 1 i j x x' id r r'
    (proj1 shop_ops_run) card_renders eq_refl C1 eq_refl eq_refl busy_renders eq_refl C2 L2 L2 (proj2 shop_ops_run) eq_refl eq_refl eq_refl _).
  destruct card_draws as (_ & -> & _). apply card_ids. lia.
Qed.

(** The first rendering leaves one owner more: the source it hands on. *)
Example component_gives_back_ex :
  (forall h mj, owns (a_world (p_app shop_prog)) h mj -> owns (a_world (p_app card_prog)) h mj)
  /\ w_mhandles (a_world (p_app card_prog)) = w_mhandles (a_world (p_app shop_prog)) ++ [None; None; None; Some 1]
  /\ map s_manager card_passed = [Some 7]
  /\ List.length (w_mhandles (a_world (p_app shop_prog))) = 4.
Proof.
  split; [|split; [|split]; vm_compute; reflexivity].
  destruct card_context as (C1 & _).
  exact (proj1 (component_gives_back _ _ _ _ _ _ _ _ _ _ _ (proj1 shop_ops_run) card_renders card_plain C1)).
Qed.

(** Rendered again, after the second one: the same classes, and the document is left alone. *)
Example component_reuses_ex : nothing_new (a_world (p_app busy_prog)) (a_world (p_app again_prog)).
Proof.
  destruct card_context as (C1 & C2 & C3 & L1 & L2 & L3).
  assert (F : Forall2 (classes_in (a_world (p_app busy_prog)) 1) (asks [] card) card_classes).
  { exact (classes_stay _ _ _ _ _ _ _ _ _ _ _ _ _ (proj1 shop_ops_run) card_renders eq_refl C1 busy_step eq_refl L2). }
  exact (proj2 (proj2 (component_reuses _ _ _ _ _ _ _ _ _ _ _ _ busy_run again_renders card_plain C3 F))).
Qed.

Example component_never_panics_ex : exists p1 cls pas, render_component shop_yew demo_env None card busy_prog = Some (p1, cls, pas).
Proof.
  apply (component_never_panics shop_yew demo_env demo_page _ busy_prog None card (lit "stylist") busy_run card_plain).
  - split; [|reflexivity]. right. destruct browser_ex as (_ & D & k & Hk & _ & T). split; auto. now exists k.
  - intros x _ D. discriminate.
Qed.

(** What the page says for the second class, while the other component comes and goes. *)
Lemma blue_closed : closed_sheet (PropsManager.demo_sheet "blue").
Proof. solve_closed. Qed.
Definition demo_default : mgr := nth 1 (w_mgrs (a_world (p_app busy_prog))) (mk_mgr [] None true None [] 0).
Lemma demo_default_is :
  nth_error (w_mgrs (a_world (p_app busy_prog))) 1 = Some demo_default /\ m_data demo_default = None /\ m_container demo_default = Some 0
  /\ m_prefix demo_default = lit "stylist".
Proof. split; [|split; [|split]]; vm_compute; reflexivity. Qed.
Example component_takes_effect_ex :
  page_says (a_world (p_app busy_prog)) (lit "stylist-style-2") (sheet_decls (Some (lit "stylist-style-2")) (PropsManager.demo_sheet "blue")).
Proof.
  destruct card_context as (C1 & C2 & C3 & L1 & L2 & L3). destruct demo_default_is as (M1 & M2 & M3 & M4).
  destruct (component_takes_effect shop_yew demo_env demo_page shop_ops shop_prog None card card_prog card_classes card_passed 1
    [CRender None busy_card] busy_prog demo_default 0 0 None (PropsManager.demo_sheet "blue") (PropsManager.demo_sheet "blue") [lit "stylist-style-2"]
    (proj1 shop_ops_run) card_renders eq_refl C1 busy_step eq_refl L2 (proj2 shop_ops_run) eq_refl eq_refl M1 M2 M3) as (id & E & P).
  - destruct browser_ex as (_ & _ & k & Hk & I & _). cbn in Hk. injection Hk as <-. exact I.
  - rewrite M4. exact stylist_prefix.
  - reflexivity.
  - reflexivity.
  - apply names_fresh_ex. destruct card_draws as (_ & -> & _). lia.
  - reflexivity.
  - reflexivity.
  - reflexivity.
  - exact blue_closed.
  - injection E as <-. exact P.
Qed.

(** [css!("color: ${c}; a { width: ${ w}px; }", c = .., w = ..)] in a component. *)
Definition themed : list bop := [BCss None (erase_sheet (page_value 1)); BClasses 0].
Definition themed_prog : prog :=
  match render_component shop_yew demo_env None themed shop_prog with Some (p, _, _) => p | None => shop_prog end.
Lemma themed_renders : render_component shop_yew demo_env None themed shop_prog = Some (themed_prog, [[lit "stylist-style-2"]], []).
Proof. vm_compute. reflexivity. Qed.
Definition themed_default : mgr := nth 1 (w_mgrs (a_world (p_app themed_prog))) (mk_mgr [] None true None [] 0).
Lemma themed_default_is :
  nth_error (w_mgrs (a_world (p_app themed_prog))) 1 = Some themed_default /\ m_data themed_default = None /\ m_container themed_default = Some 0
  /\ m_prefix themed_default = lit "stylist" /\ w_draws (a_world (p_app themed_prog)) = 3
  /\ nth_error page_values 1 = Some (page_value 1) /\ nth_error page_envs 1 = Some (page_env "#00f").
Proof. split; [|split; [|split; [|split; [|split; [|split]]]]]; vm_compute; reflexivity. Qed.
Example component_macro_takes_effect_ex :
  page_says (a_world (p_app themed_prog)) (lit "stylist-style-2") (sheet_decls (Some (lit "stylist-style-2")) (page_filled "#00f")).
Proof.
  destruct page_evaluates as (E & V & _). destruct themed_default_is as (M1 & M2 & M3 & M4 & M5 & M6 & M7).
  assert (Ps : parse (lit "color: ${c}; a { width: ${ w}px; }") = Parsed page_parsed) by (vm_compute; reflexivity).
  assert (M : sheet_macro page_lit any_expr (page_first :: page_rest) = Some page_expansion) by (cbn [sheet_macro page_first]; change (RLit _) with page_first; now rewrite E).
  assert (Sy : macro_says page_lit any_expr (page_env "#00f") (page_first :: page_rest) (page_filled "#00f")).
  { eapply ms_literal; [reflexivity|exact Ps|exact page_after_literal|apply page_fills]. }
  assert (Cl : closed_sheet (page_filled "#00f")) by solve_closed.
  assert (C : context_is (p_app shop_prog) (p_app themed_prog) None 1) by (exists 1; split; vm_compute; reflexivity).
  assert (L : mlive (a_world (p_app themed_prog)) 1) by (exists 1; vm_compute; reflexivity).
  destruct (component_macro_takes_effect page_lit any_expr (page_first :: page_rest) page_expansion page_envs page_values 1 (page_env "#00f") (page_value 1)
    (page_filled "#00f") shop_yew demo_env demo_page shop_ops shop_prog None themed themed_prog [[lit "stylist-style-2"]] [] 1 [] themed_prog
    themed_default 0 0 None [lit "stylist-style-2"] M V M7 M6 Sy Cl (proj1 shop_ops_run) themed_renders eq_refl C eq_refl eq_refl L
    (proj2 shop_ops_run) eq_refl eq_refl M1 M2 M3) as (id & Ei & P).
  - destruct browser_ex as (_ & _ & k & Hk & I & _). cbn in Hk. injection Hk as <-. exact I.
  - rewrite M4. exact stylist_prefix.
  - reflexivity.
  - reflexivity.
  - apply names_fresh_ex. rewrite M5. lia.
  - reflexivity.
  - reflexivity.
  - injection Ei as <-. exact P.
Qed.
