(** * PropsPropValue: CSS given as properties (C79). *)

From Coq Require Import String Ascii List NArith Bool Arith Lia Permutation.
From Verif Require Import Str StrFacts Ast Render CssParser SheetCache Ids IdFacts Manager SpecManager
  ManagerFacts ManagerInv ManagerSteps ManagerCore ManagerProps Hydrate Hooks SpecHooks HookFacts HookOnly
  HookTame HookKeep PropsManager PropsHooks PropsCache SpecProgress Progress PropsProgress Create SpecCreate CreateFacts PropsCreate
  SpecGrammar SpecReparse ParserComplete ReparseWritten PropsReparse PropsParser PropsRender Tok Output Owned LitMacro
  SpecOutput SpecMacro PropsMacro SpecInline Inline PropsInline SpecRender SpecPage PropsPage
  Component SpecComponent ComponentFacts MacroFn SpecMacroFn PropsComponent PropValue SpecPropValue.
Import ListNotations.
Local Open Scope list_scope.
Local Opaque parse to_style_str.

(** ** The programs *)

Lemma eloaded_app l l' : eloaded (l ++ l') = eloaded l ++ eloaded l'.
Proof. unfold eloaded. apply flat_map_app. Qed.
Lemma erun_app y e : forall l q p l' p', erun y e q l = Some p -> erun y e p l' = Some p' -> erun y e q (l ++ l') = Some p'.
Proof.
  induction l as [|o l IH]; intros q p l' p' H H'; cbn [erun List.app] in *.
  - now injection H as ->.
  - destruct (estep y e q o); [eauto|discriminate].
Qed.

(** Each step is some steps of the programs with components. *)
Lemma lower_step y e p o p1 :
  estep y e p o = Some p1 ->
  exists l, crun y e p l = Some p1 /\ cloaded l = eloaded [o] /\ existsb cunregisters l = eunregisters o
    /\ forall i, existsb (ctouches i) l = etouches i o.
Proof.
  intros H.
  assert (T : forall loc c k src f, try_into loc c (p_cache p) = (k, Some src) -> punregisters (PApp f) = false -> ploaded [PApp f] = [] ->
            (forall a, astep y e (p_app p) f = Some a ->
            exists l, crun y e p l = Some (mk_prog a k) /\ cloaded l = [] /\ existsb cunregisters l = false
              /\ forall i, existsb (ctouches i) l = atouches i f)).
  { intros loc c k src f Ti U L a A. destruct c as [t|s|s0]; cbn [try_into] in Ti.
    - destruct (from_str (p_cache p) t) as [k1 r] eqn:Fs. destruct r as [m| |]; try discriminate. injection Ti as <- <-.
      exists [CDo (PParse t); CDo (PApp f)]. cbn [crun cstep pstep p_app p_cache]. rewrite A, Fs. cbn [fst]. split; [reflexivity|].
      split; [unfold cloaded; cbn [flat_map]; now rewrite L|]. split; [cbn [existsb cunregisters]; now rewrite U|].
      intros i. cbn. now rewrite orb_false_r.
    - injection Ti as <- <-. exists [CDo (PApp f)]. cbn [crun cstep pstep]. rewrite A. split; [reflexivity|].
      split; [unfold cloaded; cbn [flat_map]; now rewrite L|]. split; [cbn [existsb cunregisters]; now rewrite U|].
      intros i. cbn. now rewrite orb_false_r.
    - injection Ti as <- <-. exists [CDo (PApp f)]. cbn [crun cstep pstep]. rewrite A. split; [reflexivity|].
      split; [unfold cloaded; cbn [flat_map]; now rewrite L|]. split; [cbn [existsb cunregisters]; now rewrite U|].
      intros i. cbn. now rewrite orb_false_r. }
  destruct o as [o|loc i ctx c|loc ctx c|x]; cbn [estep] in H.
  - exists [o]. cbn [crun]. rewrite H. split; [reflexivity|]. unfold eloaded. cbn [flat_map]. rewrite app_nil_r. split; [reflexivity|].
    cbn. rewrite orb_false_r. split; auto. intros i. apply orb_false_r.
  - unfold global_element, prop_value in H. destruct (try_into loc c (p_cache p)) as [k [src|]] eqn:Ti; [|discriminate].
    destruct (astep y e (p_app p) _) as [a|] eqn:A; [|discriminate]. injection H as <-.
    destruct i as [i|].
    + destruct (T _ _ _ _ (ARender i ctx src) Ti eq_refl eq_refl _ A) as (l & L1 & L2 & L3 & L4). exists l. auto.
    + destruct (T _ _ _ _ (AMount ctx src) Ti eq_refl eq_refl _ A) as (l & L1 & L2 & L3 & L4). exists l. auto.
  - unfold use_css in H. destruct (try_into loc c (p_cache p)) as [k [src|]] eqn:Ti; [|discriminate].
    destruct (user_source (p_app p) src) eqn:U; [|discriminate]. destruct (use_style e ctx src (p_app p)) as [[a x]|] eqn:A; [|discriminate].
    injection H as <-. destruct (T _ _ _ _ (AUseStyle ctx src) Ti eq_refl eq_refl a) as (l & L1 & L2 & L3 & L4); eauto.
    cbn [astep]. now rewrite U, A.
  - unfold style_class in H. destruct (free (style_handles (p_app p)) (Some x)) eqn:F; [|discriminate].
    destruct (get_id (a_world (p_app p)) x) as [id|]; [|discriminate]. injection H as <-.
    exists [CDo (PApp (AOp (ODropStyle x)))]. split; [|split; [|split]]; try reflexivity.
    cbn [crun cstep pstep astep op_style op_mhandle]. rewrite F. cbn [free andb Manager.step]. unfold drop_style.
    destruct (handle_of _ x); reflexivity.
Qed.
Lemma lower_run y e : forall l p p1,
  erun y e p l = Some p1 ->
  exists l', crun y e p l' = Some p1 /\ cloaded l' = eloaded l /\ existsb cunregisters l' = existsb eunregisters l
    /\ forall i, existsb (ctouches i) l' = existsb (etouches i) l.
Proof.
  induction l as [|o l IH]; intros p p1 H; cbn [erun] in H.
  - injection H as <-. exists []. auto.
  - destruct (estep y e p o) as [p2|] eqn:S; [|discriminate]. destruct (lower_step _ _ _ _ _ S) as (l1 & A1 & A2 & A3 & A4).
    destruct (IH _ _ H) as (l2 & B1 & B2 & B3 & B4). exists (l1 ++ l2). split; [eapply crun_app; eauto|].
    rewrite cloaded_app, A2, B2. split; [now rewrite <- eloaded_app|]. rewrite existsb_app. cbn [existsb]. split; [congruence|].
    intros i. rewrite existsb_app. cbn [existsb]. now rewrite A4, B4.
Qed.
Lemma pgood_ereached y e page l p : erun y e (prog_start page) l = Some p -> pgood e page (eloaded l) p.
Proof. intros H. apply lower_run in H. destruct H as (l' & H & <- & _). now apply pgood_creached in H. Qed.
Lemma pgood_erun y e page l ids p p1 : pgood e page ids p -> erun y e p l = Some p1 -> pgood e page (ids ++ eloaded l) p1.
Proof. intros G H. apply lower_run in H. destruct H as (l' & H & <- & _). eapply pgood_crun; eauto. Qed.
Lemma steps_erun y e page l ids p p1 :
  pgood e page ids p -> erun y e p l = Some p1 -> existsb eunregisters l = false -> steps e (a_world (p_app p)) (a_world (p_app p1)).
Proof. intros G H U. apply lower_run in H. destruct H as (l' & H & _ & Eu & _). rewrite <- Eu in U. now destruct (steps_crun _ _ _ _ _ _ _ G H U). Qed.

(** ** A [Global] carries its CSS until it is rendered again or unmounted *)

Lemma carried_lt a i v : carried a i = Some v -> i < List.length (a_globals a).
Proof. unfold carried. intros H. apply nth_error_Some. destruct (nth_error _ i); congruence. Qed.

Lemma passes_pstep y e page ids p o p1 :
  pgood e page ids p -> pstep y e p o = Some p1 -> passes (w_mhandles (a_world (p_app p))) (w_mhandles (a_world (p_app p1))).
Proof.
  intros G S. destruct (punregisters o) eqn:U.
  - destruct o as [o| |]; try discriminate. cbn [pstep] in S. destruct (astep y e (p_app p) o) as [a|] eqn:A; [|discriminate]. injection S as <-.
    destruct G as (_ & G & _). eapply passes_astep; eauto.
  - destruct (steps_pstep _ _ _ _ _ _ _ G S U) as [St _]. eapply passes_steps; eauto.
Qed.
Lemma pstep_carried y e page ids p o p1 i v :
  pgood e page ids p -> pstep y e p o = Some p1 -> ptouches i o = false -> carried (p_app p) i = Some v -> carried (p_app p1) i = Some v.
Proof.
  intros G S T C. pose proof (passes_pstep _ _ _ _ _ _ _ G S) as Pa. pose proof (pgood_pstep _ _ _ _ _ _ _ G S) as (_ & G1 & _).
  pose proof G as (K & Ga & D). destruct o as [o|loc c|t]; cbn [pstep] in S.
  - destruct (astep y e (p_app p) o) as [a|] eqn:A; [|discriminate]. injection S as <-. cbn [p_app]. rewrite <- C.
    pose proof (carries_good y e page ids _ _ _ i Ga A) as X. cbn [ptouches atouches] in T.
    destruct o as [o|ctx src|j ctx src|j|src|ctx src]; cbn [atouches] in T; auto; try (rewrite T in X; exact X).
    destruct (Nat.eqb_spec i (List.length (a_globals (p_app p)))) as [->|N]; auto. apply carried_lt in C. lia.
  - rewrite <- C. eapply carried_same; eauto. destruct (user_call (p_app p) c) eqn:U; [|discriminate]. destruct (perform e loc c p) as [p2 r] eqn:P.
    assert (N : call_handle c = None -> default_manager e (p_app p) <> None).
    { intros Hc Dn. destruct (perform_default _ _ _ _ _ _ Hc Dn P) as [_ ->]. discriminate. }
    destruct (perform_spec e page ids loc c p p2 r K Ga U N P) as (_ & Eg & _).
    destruct r; try discriminate; injection S as <-; now rewrite Eg.
  - injection S as <-. exact C.
Qed.

Lemma classes_globals e src a a1 cl : into_classes e src a = Some (a1, cl) -> a_globals a1 = a_globals a.
Proof.
  unfold into_classes. destruct (match s_manager src with Some h => Some (a, h) | None => default_manager e a end) as [[a2 h]|] eqn:E; [|discriminate].
  assert (Eg : a_globals a2 = a_globals a).
  { destruct (s_manager src); [now injection E as <- _|]. apply (context_globals e None a a2 h E). }
  destruct (new_style _ _ _ _) as [w2 [x| | | | |]]; try discriminate. cbv zeta. destruct (get_id _ _); [|discriminate].
  intros H. injection H as <- _. exact Eg.
Qed.

Lemma bstep_carried y e page ids mi made f o f1 i v :
  fgood e page ids mi made f -> bstep y e f o = Some f1 ->
  match o with BDo o => ptouches i o | _ => false end = false ->
  carried (p_app (f_prog f)) i = Some v -> carried (p_app (f_prog f1)) i = Some v.
Proof.
  intros F B T C. destruct (bstep_good _ _ _ _ _ _ _ _ _ F B) as (F1 & _ & St & _).
  pose proof (fg_prog _ _ _ _ _ _ F) as G. pose proof (fg_prog _ _ _ _ _ _ F1) as (_ & Ga1 & _). pose proof G as (_ & Ga & _).
  assert (Z : bunregisters o = false -> a_globals (p_app (f_prog f1)) = a_globals (p_app (f_prog f)) -> carried (p_app (f_prog f1)) i = Some v).
  { intros U E. destruct (St U) as [S _]. rewrite <- C. eapply (carried_same _ _ _ _ _ _ _ Ga Ga1); [eapply passes_steps; eauto|now rewrite E]. }
  destruct o as [loc s|j|j|o]; cbn [bstep] in B.
  - apply Z; auto. destruct (Manager.step _ _ _) as [w [h| | | | |]]; try discriminate. cbn in B. now injection B as <-.
  - apply Z; auto. destruct (nth_error (f_sources f) j) as [[src|]|]; try discriminate.
    destruct (into_classes e src (p_app (f_prog f))) as [[a1 cl]|] eqn:E; [|discriminate]. injection B as <-. cbn. eapply classes_globals; eauto.
  - apply Z; auto. destruct (nth_error (f_sources f) j) as [[src|]|]; try discriminate. now injection B as <-.
  - destruct (forallb _ _); [|discriminate]. destruct (pstep y e (f_prog f) o) as [p2|] eqn:S; [|discriminate]. injection B as <-. cbn [f_prog].
    eapply pstep_carried; eauto.
Qed.
Lemma brun_carried y e page mi i v : forall body ids made f f1,
  fgood e page ids mi made f -> brun y e f body = Some f1 ->
  existsb (fun b => match b with BDo o => ptouches i o | _ => false end) body = false ->
  carried (p_app (f_prog f)) i = Some v -> carried (p_app (f_prog f1)) i = Some v.
Proof.
  induction body as [|o body IH]; intros ids made f f1 F B T C; cbn [brun] in B; [now injection B as <-|].
  destruct (bstep y e f o) as [f2|] eqn:S; [|discriminate]. cbn [existsb] in T. apply orb_false_iff in T. destruct T as [T1 T2].
  destruct (bstep_good _ _ _ _ _ _ _ _ _ F S) as (F2 & _). refine (IH _ _ _ _ F2 B T2 _).
  exact (bstep_carried _ _ _ _ _ _ _ _ _ _ _ F S T1 C).
Qed.
Lemma cstep_carried y e page ids p o p1 i v :
  pgood e page ids p -> cstep y e p o = Some p1 -> ctouches i o = false -> carried (p_app p) i = Some v -> carried (p_app p1) i = Some v.
Proof.
  intros G S T C. destruct o as [o|ctx body]; cbn [cstep ctouches] in *; [eapply pstep_carried; eauto|].
  destruct (render_component y e ctx body p) as [[[p2 cls] pas]|] eqn:R; [|discriminate]. injection S as ->.
  unfold render_component in R. destruct (context_manager e ctx (p_app p)) as [[a h]|] eqn:Cx; [|discriminate].
  destruct (frame_starts _ _ _ _ _ _ _ G Cx) as (mi & _ & F). destruct (brun y e _ body) as [f|] eqn:B; [|discriminate]. injection R as <- _ _.
  assert (C1 : carried a i = Some v).
  { rewrite <- C. pose proof (fg_prog _ _ _ _ _ _ F) as (_ & G1 & _). cbn [f_prog p_app] in G1. destruct G as (_ & Ga & _).
    destruct (steps_context _ _ _ _ _ Cx) as (S & _). eapply (carried_same _ _ _ _ _ _ _ Ga G1); [eapply passes_steps; eauto|]. now rewrite (context_globals _ _ _ _ _ Cx). }
  pose proof (brun_carried _ _ _ _ _ _ _ _ _ _ _ F B T C1) as C2.
  destruct (brun_good _ _ _ _ _ _ _ _ _ F B) as (F1 & _). destruct (leave_spec _ _ _ _ _ _ F1) as ((_ & L1 & _) & L2 & _ & L4 & _). cbv zeta in *.
  rewrite <- C2. pose proof (fg_prog _ _ _ _ _ _ F1) as (_ & Gf & _). eapply (carried_same _ _ _ _ _ _ _ Gf L1); [eapply passes_steps; eauto|now rewrite L2].
Qed.
Lemma crun_carried y e page i v : forall l ids p p1,
  pgood e page ids p -> crun y e p l = Some p1 -> existsb (ctouches i) l = false -> carried (p_app p) i = Some v -> carried (p_app p1) i = Some v.
Proof.
  induction l as [|o l IH]; intros ids p p1 G H T C; cbn [crun] in H; [now injection H as <-|].
  destruct (cstep y e p o) as [p2|] eqn:S; [|discriminate]. cbn [existsb] in T. apply orb_false_iff in T. destruct T as [T1 T2].
  eapply IH; [eapply pgood_cstep; eauto|exact H|exact T2|]. eapply cstep_carried; eauto.
Qed.

(** ** The page *)

Lemma present_says e page p i mi m k s s' :
  pgood e page [] p -> carried (p_app p) i = Some (mi, s) ->
  nth_error (w_mgrs (a_world (p_app p))) mi = Some m -> m_data m = None -> m_container m = Some k -> in_document page k ->
  plain_prefix (m_prefix m) -> e_wasm e = true -> e_document e = true -> names_fresh e page (w_draws (a_world (p_app p))) ->
  (forall class, to_style_str class s = to_style_str class s') -> closed_sheet s' ->
  exists id, page_says (a_world (p_app p)) id (sheet_decls None s') /\ ~ In id (page_ids page).
Proof.
  intros (_ & G & _) C Hm Md Mc Ic Pp W Dc F Es Cl. pose proof (fresh_plain _ _ _ F) as Pl. destruct F as [Dr Ap].
  destruct (present_good e page (p_app p) i mi m s k G Ap Pl W Dc C Hm Md Mc Ic (proj1 Pp)) as (id & n & T & _ & _ & N).
  exists id. split; auto. rewrite Es in T. destruct (rendered_css_reads_back None s' I Cl) as (items & I1 & I2).
  exists (to_style_str None s'), items. auto.
Qed.

(** The CSS a [Global] is given says on the page what it says, from the rendering on until the
    component is rendered again or unmounted, whatever else the program does. *)
Theorem global_takes_effect : forall y e page l p loc at_ ctx c p1 mi l' p2 m k s s',
  erun y e (prog_start page) l = Some p -> global_element y e loc at_ ctx c p = Some p1 ->
  context_is (p_app p) (p_app p1) ctx mi ->
  erun y e p1 l' = Some p2 -> existsb (etouches (which at_ p)) l' = false ->
  eloaded l = [] -> eloaded l' = [] ->
  nth_error (w_mgrs (a_world (p_app p2))) mi = Some m -> m_data m = None -> m_container m = Some k -> in_document page k ->
  plain_prefix (m_prefix m) -> e_wasm e = true -> e_document e = true ->
  names_fresh e page (w_draws (a_world (p_app p2))) ->
  css_sheet c = Some s -> (forall class, to_style_str class s = to_style_str class s') -> closed_sheet s' ->
  exists id, page_says (a_world (p_app p2)) id (sheet_decls None s') /\ ~ In id (page_ids page).
Proof.
  intros y e page l p loc at_ ctx c p1 mi l' p2 m k s s' H R Cx H2 T L1 L2 Hm Md Mc Ic Pp W Dc F Cs Es Cl.
  pose proof (pgood_ereached _ _ _ _ _ H) as G. rewrite L1 in G.
  assert (R1 : erun y e p [EGlobal loc at_ ctx c] = Some p1) by (cbn [erun estep]; now rewrite R).
  pose proof (pgood_erun _ _ _ _ _ _ _ G R1) as G1. cbn [eloaded flat_map List.app] in G1.
  pose proof (pgood_erun _ _ _ _ _ _ _ G1 H2) as G2. rewrite L2 in G2. cbn [List.app] in G2.
  assert (C : carried (p_app p1) (which at_ p) = Some (mi, s)).
  { unfold global_element, prop_value in R. destruct (try_into loc c (p_cache p)) as [k0 [src|]] eqn:Ti; [|discriminate].
    pose proof G as (K & Ga & _). destruct (try_into_spec _ _ _ _ _ K Ti) as (_ & Ss & _). rewrite Cs in Ss. injection Ss as ->.
    destruct (astep y e (p_app p) _) as [a|] eqn:A; [|discriminate]. injection R as <-. cbn [p_app] in *.
    pose proof (carries_good y e page [] _ _ _ (which at_ p) Ga A) as X. destruct at_ as [i|]; cbn [which] in *;
      rewrite Nat.eqb_refl in X; destruct X as (mi' & Cx' & X); now rewrite (context_same _ _ _ _ _ Cx Cx'). }
  destruct (lower_run _ _ _ _ _ H2) as (lc & Hc & _ & _ & Tc). rewrite <- Tc in T.
  pose proof (crun_carried _ _ _ _ _ _ _ _ _ G1 Hc T C) as C2.
  eapply present_says; eauto.
Qed.
Print Assumptions global_takes_effect.

(** CSS text that is written in the documented syntax ... *)
Theorem global_text_takes_effect : forall y e page l p loc at_ ctx t p1 mi l' p2 m k s,
  erun y e (prog_start page) l = Some p -> global_element y e loc at_ ctx (CText t) p = Some p1 ->
  context_is (p_app p) (p_app p1) ctx mi ->
  erun y e p1 l' = Some p2 -> existsb (etouches (which at_ p)) l' = false ->
  eloaded l = [] -> eloaded l' = [] ->
  nth_error (w_mgrs (a_world (p_app p2))) mi = Some m -> m_data m = None -> m_container m = Some k -> in_document page k ->
  plain_prefix (m_prefix m) -> e_wasm e = true -> e_document e = true ->
  names_fresh e page (w_draws (a_world (p_app p2))) ->
  writes_sheet t s -> closed_sheet s ->
  exists id, page_says (a_world (p_app p2)) id (sheet_decls None s) /\ ~ In id (page_ids page).
Proof.
  intros y e page l p loc at_ ctx t p1 mi l' p2 m k s. intros.
  eapply (global_takes_effect y e page l p loc at_ ctx (CText t) p1 mi l' p2 m k s s); eauto.
  cbn [css_sheet]. erewrite parse_complete; eauto.
Qed.
Print Assumptions global_text_takes_effect.

(** ... and what a macro says, each time its code is run, as a sheet or made into a source by [css!]. *)
Theorem global_macro_takes_effect :
  forall lit_value expr_of input g envs vs n rho v y e page l p loc at_ ctx c p1 mi l' p2 m k s,
  sheet_macro lit_value expr_of input = Some g ->
  evaluate_all None envs g = Some vs -> nth_error envs n = Some rho -> nth_error vs n = Some v ->
  macro_says lit_value expr_of rho input s -> closed_sheet s ->
  erun y e (prog_start page) l = Some p -> global_element y e loc at_ ctx c p = Some p1 ->
  context_is (p_app p) (p_app p1) ctx mi ->
  erun y e p1 l' = Some p2 -> existsb (etouches (which at_ p)) l' = false ->
  eloaded l = [] -> eloaded l' = [] ->
  nth_error (w_mgrs (a_world (p_app p2))) mi = Some m -> m_data m = None -> m_container m = Some k -> in_document page k ->
  plain_prefix (m_prefix m) -> e_wasm e = true -> e_document e = true ->
  names_fresh e page (w_draws (a_world (p_app p2))) ->
  css_sheet c = Some (erase_sheet v) ->
  exists id, page_says (a_world (p_app p2)) id (sheet_decls None s) /\ ~ In id (page_ids page).
Proof.
  intros lv ex input g envs vs n rho v y e page l p loc at_ ctx c p1 mi l' p2 m k s M V Hr Hv Sy Cl. intros.
  eapply (global_takes_effect y e page l p loc at_ ctx c p1 mi l' p2 m k (erase_sheet v) s); eauto.
  eapply macro_renders_what_it_says; eauto.
Qed.
Print Assumptions global_macro_takes_effect.

(** ** [use_style] and [class={style}] *)

Lemma use_css_good e page ids loc ctx c p p1 x s :
  pgood e page ids p -> use_css e loc ctx c p = Some (p1, x) -> css_sheet c = Some s ->
  exists mi m cid d,
    context_is (p_app p) (p_app p1) ctx mi /\ nth_error (w_mgrs (a_world (p_app p1))) mi = Some m
    /\ handle_of (w_handles (a_world (p_app p1))) x = Some cid /\ nth_error (w_contents (a_world (p_app p1))) cid = Some d
    /\ c_key d = mk_key false (m_prefix m) s /\ c_mgr d = mi
    /\ (mlive (a_world (p_app p1)) mi -> registered (a_world (p_app p1)) mi (mk_key false (m_prefix m) s) cid).
Proof.
  intros (K & G & _) U Cs. unfold use_css in U. destruct (try_into loc c (p_cache p)) as [k0 [src|]] eqn:Ti; [|discriminate].
  destruct (try_into_spec _ _ _ _ _ K Ti) as (_ & Ss & _). rewrite Cs in Ss. injection Ss as ->.
  destruct (user_source (p_app p) src) eqn:Us; [|discriminate]. destruct (use_style e ctx src (p_app p)) as [[a z]|] eqn:A; [|discriminate].
  injection U as <- <-. cbn [p_app]. exact (use_style_good _ _ _ _ _ _ _ _ G Us A).
Qed.

Lemma passes_handles e w w' : steps e w w' -> passes (w_handles w) (w_handles w').
Proof.
  intros S. induction S as [|w o w' _ _ IH]; [apply passes_refl|]. eapply passes_trans; [|exact IH].
  destruct (step_handles e w o) as [->|[(c & ->)|(h & _ & ->)]]; [apply passes_refl| |].
  - split; [rewrite app_length; lia|]. intros h H. left. now apply nth_error_app1.
  - split; [now rewrite upd_length|]. intros i H. rewrite nth_upd. destruct (Nat.eqb_spec h i) as [->|]; auto.
    destruct (nth_error (w_handles w) i) eqn:E; auto.
Qed.

(** [use_style] with any CSS, and its class made any time later, as in [class={style}]: as long as
    the manager of the context lives and nothing is unregistered by hand, the page says for the
    class what the CSS says. *)
Theorem use_style_takes_effect : forall y e page l p loc ctx c p1 x mi l' p2 p3 cls l'' p4 m k s s',
  erun y e (prog_start page) l = Some p -> use_css e loc ctx c p = Some (p1, x) ->
  context_is (p_app p) (p_app p1) ctx mi ->
  erun y e p1 l' = Some p2 -> existsb eunregisters l' = false ->
  style_class e x p2 = Some (p3, cls) ->
  erun y e p3 l'' = Some p4 -> existsb eunregisters l'' = false -> mlive (a_world (p_app p4)) mi ->
  eloaded l = [] -> eloaded l' = [] -> eloaded l'' = [] ->
  nth_error (w_mgrs (a_world (p_app p4))) mi = Some m -> m_data m = None -> m_container m = Some k -> in_document page k ->
  plain_prefix (m_prefix m) -> e_wasm e = true -> e_document e = true ->
  names_fresh e page (w_draws (a_world (p_app p4))) ->
  css_sheet c = Some s -> (forall class, to_style_str class s = to_style_str class s') -> closed_sheet s' ->
  exists id, cls = [id] /\ page_says (a_world (p_app p4)) id (sheet_decls (Some id) s').
Proof.
  intros y e page l p loc ctx c p1 x mi l' p2 p3 cls l'' p4 m k s s' H R Cx H2 U2 Sc H4 U4 Lv L1 L2 L4 Hm Md Mc Ic Pp W Dc F Cs Es Cl.
  pose proof (pgood_ereached _ _ _ _ _ H) as G. rewrite L1 in G.
  assert (R1 : erun y e p [EUse loc ctx c] = Some p1) by (cbn [erun estep]; now rewrite R).
  pose proof (pgood_erun _ _ _ _ _ _ _ G R1) as G1. cbn [eloaded flat_map List.app] in G1.
  pose proof (pgood_erun _ _ _ _ _ _ _ G1 H2) as G2. rewrite L2 in G2. cbn [List.app] in G2.
  assert (R3 : erun y e p2 [EClass x] = Some p3) by (cbn [erun estep]; now rewrite Sc).
  pose proof (pgood_erun _ _ _ _ _ _ _ G2 R3) as G3. cbn [eloaded flat_map List.app] in G3.
  pose proof (pgood_erun _ _ _ _ _ _ _ G3 H4) as G4. rewrite L4 in G4. cbn [List.app] in G4.
  pose proof (steps_erun _ _ _ _ _ _ _ G1 H2 U2) as S2. pose proof (steps_erun _ _ _ _ _ _ _ G2 R3 eq_refl) as S3.
  pose proof (steps_erun _ _ _ _ _ _ _ G3 H4 U4) as S4. pose proof (steps_trans _ _ _ _ S2 (steps_trans _ _ _ _ S3 S4)) as S14.
  destruct (use_css_good _ _ _ _ _ _ _ _ _ _ G R Cs) as (mi' & m1 & cid & d & Cx' & Hm1 & Hx & Hd & Kd & Md1 & Rg).
  rewrite (context_same _ _ _ _ _ Cx' Cx) in *. clear Cx' mi'.
  assert (C1 : classes_in (a_world (p_app p1)) mi (None, s) [c_id d]).
  { exists m1, cid, d. split; auto. split; auto. apply Rg. eapply mlive_steps; [exact S14| |exact Lv]. eapply nth_lt; eauto. }
  assert (Ec : cls = [c_id d]).
  { unfold style_class in Sc. destruct (free _ _); [|discriminate]. destruct (get_id (a_world (p_app p2)) x) as [id|] eqn:Gi; [|discriminate].
    injection Sc as _ <-. unfold get_id, handle_content in Gi. destruct (handle_of (w_handles (a_world (p_app p2))) x) as [cid'|] eqn:Hx2; [|discriminate].
    rewrite (passes_same _ _ _ _ _ (passes_handles _ _ _ S2) Hx Hx2) in *. destruct (steps_contents _ _ _ _ _ S2 Hd) as (d2 & Hd2 & B).
    rewrite Hd2 in Gi. cbn in Gi. injection Gi as <-. apply base_fields in B. destruct B as (-> & _). reflexivity. }
  subst cls. pose proof G1 as (_ & Ga1 & _).
  pose proof (classes_in_steps _ _ _ _ _ _ S14 (good_cored _ _ _ _ _ _ Ga1) C1 Lv) as C4.
  exact (classes_say e page p4 mi m k None s s' _ G4 C4 Hm Md Mc Ic Pp W Dc F Es Cl).
Qed.
Print Assumptions use_style_takes_effect.

Theorem use_style_text_takes_effect : forall y e page l p loc ctx t p1 x mi l' p2 p3 cls l'' p4 m k s,
  erun y e (prog_start page) l = Some p -> use_css e loc ctx (CText t) p = Some (p1, x) ->
  context_is (p_app p) (p_app p1) ctx mi ->
  erun y e p1 l' = Some p2 -> existsb eunregisters l' = false ->
  style_class e x p2 = Some (p3, cls) ->
  erun y e p3 l'' = Some p4 -> existsb eunregisters l'' = false -> mlive (a_world (p_app p4)) mi ->
  eloaded l = [] -> eloaded l' = [] -> eloaded l'' = [] ->
  nth_error (w_mgrs (a_world (p_app p4))) mi = Some m -> m_data m = None -> m_container m = Some k -> in_document page k ->
  plain_prefix (m_prefix m) -> e_wasm e = true -> e_document e = true ->
  names_fresh e page (w_draws (a_world (p_app p4))) ->
  writes_sheet t s -> closed_sheet s ->
  exists id, cls = [id] /\ page_says (a_world (p_app p4)) id (sheet_decls (Some id) s).
Proof.
  intros y e page l p loc ctx t p1 x mi l' p2 p3 cls l'' p4 m k s. intros.
  eapply (use_style_takes_effect y e page l p loc ctx (CText t) p1 x mi l' p2 p3 cls l'' p4 m k s s); eauto.
  cbn [css_sheet]. erewrite parse_complete; eauto.
Qed.
Print Assumptions use_style_text_takes_effect.

(** ** Panics *)

Lemma good_creates e page ids w gs extra h mi m k :
  good e page ids w gs extra -> handle_of (w_mhandles w) h = Some mi -> nth_error (w_mgrs w) mi = Some m ->
  rereads e k -> settles e page m -> exists w' x, Manager.step e w (OCreate h k) = (w', RHandle x).
Proof.
  intros G Hh Hm Rr St. destruct (gd_reach _ _ _ _ _ _ G) as (l & R & _).
  apply (create_succeeds_iff e page l w h mi m k R Hh Hm). right. split; [intros Dg; now apply Rr|].
  destruct St as [X|[X|(X1 & X2 & c & X3 & X4)]]; auto. right. right. split; auto.
  assert (T : exists n, nth_error (w_dom w) c = Some n).
  { destruct R as [rs R]. replace w with (fst (Manager.run e (Manager.start page) l)) by now rewrite R.
    assert (T : forall l w, takes (w_dom (fst (Manager.run e w l))) = takes (w_dom w)).
    { clear. induction l as [|o l IH]; intros w; [reflexivity|]. rewrite run_cons, IH. apply step_takes. }
    specialize (T l (Manager.start page)). cbn [w_dom Manager.start] in T. destruct X4 as (n0 & Hn0 & _).
    assert (K : nth_error (takes (w_dom (fst (Manager.run e (Manager.start page) l)))) c = Some (n_accepts n0)) by (rewrite T; unfold takes; now rewrite nth_error_map, Hn0).
    unfold takes in K. rewrite nth_error_map in K. destruct (nth_error (w_dom _) c); [eauto|discriminate]. }
  destruct T as [n Hn]. exists c, n. auto.
Qed.

Lemma new_guard_settles e page ids w0 w gs extra h mi m src :
  good e page ids w gs extra -> In h extra -> steps e w0 w -> handle_of (w_mhandles w0) h = Some mi -> nth_error (w_mgrs w0) mi = Some m ->
  settles e page m -> rereads e (mk_key true (m_prefix m) (s_sheet src)) ->
  exists w1 g, new_guard e h src w = Some (w1, g).
Proof.
  intros G I S Hh Hm St Rr.
  assert (Hw : handle_of (w_mhandles w) h = Some mi).
  { pose proof (gd_live _ _ _ _ _ _ G) as Lv. rewrite Forall_forall in Lv. destruct (Lv h) as [mj Hj]; [apply in_app_iff; now left|].
    rewrite Hj. f_equal. exact (passes_same _ _ _ _ _ (passes_steps _ _ _ S) Hh Hj). }
  destruct (ComponentFacts.settles_steps _ _ _ _ _ _ S Hm St) as (m' & Hm' & Ep & St').
  unfold new_guard, manager_of. rewrite Hw, Hm'.
  assert (Rr' : rereads e (global_key m' (s_sheet src))) by (unfold global_key; now rewrite Ep).
  destruct (good_creates e page ids w gs extra h mi m' (global_key m' (s_sheet src)) G Hw Hm' Rr' St') as (w1 & x & ->). eauto.
Qed.

Lemma render_settles y e page ids p old ctx src gs prefix :
  pgood e page ids p -> Permutation (guards (p_app p)) (olds old ++ gs) ->
  can_style e page p ctx prefix -> not_dropped (p_app p) (s_manager src) ->
  rereads e (mk_key true prefix (s_sheet src)) ->
  exists a g, render_global y e old ctx src (p_app p) = Some (a, g).
Proof.
  intros P Pm Cs Nd Rr. destruct (context_settles _ _ _ _ _ _ P Cs) as (a1 & h & mi & m & C & Cx & Hm & Ep & St).
  pose proof P as (K & G & D). destruct (good_context _ _ _ _ _ _ _ G C) as [G1 Eg].
  destruct (steps_context _ _ _ _ _ C) as (_ & _ & mi' & Cx' & Hh). rewrite (context_same _ _ _ _ _ Cx' Cx) in *. clear Cx' mi'.
  unfold render_global. rewrite C.
  assert (Q : exists w1 src1, clone_source e src (a_world a1) = Some (w1, src1)).
  { unfold clone_source. destruct (s_manager src) as [d|]; [|eauto]. destruct Nd as [md Nd].
    apply (kept_context _ _ _ _ _ _ C) in Nd. cbn [Manager.step]. unfold clone_manager. rewrite Nd. eauto. }
  destruct Q as (w1 & src1 & Q). rewrite Q. destruct (good_clone_source _ _ _ _ _ _ _ _ _ G1 Q) as [G2 Es].
  pose proof (steps_clone_source _ _ _ _ _ Q) as S1.
  assert (G3 : good e page ids w1 (olds old ++ gs) (h :: source_handles src1 ++ dflt a1)).
  { eapply good_perm; [| |exact G2]; [unfold guards; rewrite Eg; exact Pm|symmetry; apply Permutation_middle]. }
  subst prefix. assert (Ng : forall w gs0, good e page ids w gs0 (h :: source_handles src1 ++ dflt a1) -> steps e (a_world a1) w ->
    exists w2 g, new_guard e h src1 w = Some (w2, g)).
  { intros w gs0 Gw Sw. eapply new_guard_settles; eauto; [now left|]. now rewrite Es. }
  assert (Z : exists w2 g, memo y e old h src1 w1 = Some (w2, g)).
  { unfold memo. destruct old as [g|]; cbn [olds List.app] in G3; [|eapply Ng; eauto].
    destruct (same_manager _ _ _ && source_eqb _ _ _); [eauto|]. destruct (y_drop_first y).
    - eapply Ng; [eapply good_drop_guard; exact G3|]. eapply steps_trans; [exact S1|]. apply steps_drop_guard.
      pose proof (gd_guards _ _ _ _ _ _ G3) as Fg. now inversion Fg.
    - destruct (Ng _ _ G3 S1) as (w2 & g1 & ->). eauto. }
  destruct Z as (w2 & g & ->). eauto.
Qed.

(** [<Global css={..} />] panics exactly if the CSS is text that does not parse, if the manager
    can put styles somewhere (and if the check of debug builds passes). *)
Theorem global_panics_iff : forall y e page l p loc at_ ctx c prefix,
  erun y e (prog_start page) l = Some p -> may_render p at_ c -> can_style e page p ctx prefix ->
  (forall s, css_sheet c = Some s -> rereads e (mk_key true prefix s)) ->
  global_element y e loc at_ ctx c p = None <-> css_sheet c = None.
Proof.
  intros y e page l p loc at_ ctx c prefix H (Nd & Mt) Cs Rr. apply pgood_ereached in H. pose proof H as (K & _ & _).
  unfold global_element, prop_value. destruct (try_into loc c (p_cache p)) as [k [src|]] eqn:Ti.
  - destruct (try_into_spec _ _ _ _ _ K Ti) as (_ & E1 & E2). rewrite E1. split; [|discriminate].
    rewrite E2 in Nd. specialize (Rr _ E1). intros X. exfalso.
    assert (Z : exists a, astep y e (p_app p) (match at_ with Some i => ARender i ctx src | None => AMount ctx src end) = Some a).
    { destruct at_ as [i|]; cbn [astep].
      - destruct Mt as [g Hg]. rewrite Hg. destruct (guards_upd _ _ _ (Some g) Hg) as (gs & P1 & _).
        destruct (render_settles y e page _ p (Some g) ctx src gs prefix H P1 Cs Nd Rr) as (a & g1 & ->). eauto.
      - destruct (render_settles y e page _ p None ctx src (guards (p_app p)) prefix H (Permutation_refl _) Cs Nd Rr) as (a & g1 & ->). eauto. }
    destruct Z as [a Z]. rewrite Z in X. discriminate.
  - destruct (try_into_spec _ _ _ _ _ K Ti) as (_ & -> & _). tauto.
Qed.
Print Assumptions global_panics_iff.

(** [use_style(..)] the same. *)
Theorem use_style_panics_iff : forall y e page l p loc ctx c prefix,
  erun y e (prog_start page) l = Some p ->
  not_dropped (p_app p) (css_manager c) -> (forall h, css_manager c = Some h -> ~ In h (manager_handles (p_app p))) ->
  can_style e page p ctx prefix ->
  (forall s, css_sheet c = Some s -> rereads e (mk_key false prefix s)) ->
  use_css e loc ctx c p = None <-> css_sheet c = None.
Proof.
  intros y e page l p loc ctx c prefix H Nd Ni Cs Rr. apply pgood_ereached in H. pose proof H as (K & G & _).
  unfold use_css. destruct (try_into loc c (p_cache p)) as [k [src|]] eqn:Ti.
  - destruct (try_into_spec _ _ _ _ _ K Ti) as (_ & E1 & E2). rewrite E1. split; [|discriminate].
    rewrite E2 in Nd, Ni. specialize (Rr _ E1). intros X. exfalso.
    assert (U : user_source (p_app p) src = true).
    { unfold user_source, free. destruct (s_manager src) as [d|]; auto. destruct Nd as [md ->]. rewrite andb_true_r. apply negb_true_iff.
      destruct (existsb (Nat.eqb d) (manager_handles (p_app p))) eqn:Ex; auto. apply existsb_exists in Ex. destruct Ex as (j & I & E).
      apply Nat.eqb_eq in E. subst j. now elim (Ni d eq_refl). }
    rewrite U in X. destruct (context_settles _ _ _ _ _ _ H Cs) as (a1 & h & mi & m & C & Cx & Hm & Ep & St).
    destruct (steps_context _ _ _ _ _ C) as (_ & _ & mi' & Cx' & Hh). rewrite (context_same _ _ _ _ _ Cx' Cx) in *. clear Cx' mi'.
    destruct (good_context _ _ _ _ _ _ _ G C) as [G1 Eg]. destruct (context_fresh _ _ _ _ _ C) as [Ed Eh].
    assert (G2 : good e page (eloaded l) (drop_source e src (a_world a1)) (guards a1) (h :: dflt a1)).
    { unfold drop_source. apply andb_prop in U. destruct U as [F1 F2]. destruct (s_manager src) as [d|]; [|exact G1].
      apply free_not_in in F1. destruct (handle_of (w_mhandles (a_world (p_app p))) d) as [mj|] eqn:Hd; [|discriminate].
      apply handle_lt in Hd. apply good_step; auto; [discriminate|]. intros h' Q. injection Q as <-.
      intros J. cbn in J. destruct J as [J|J]; [lia|]. apply in_app_iff in J. destruct J as [J|J].
      - unfold dflt in J. destruct (a_default a1) as [d'|] eqn:D1; [|contradiction]. destruct J as [<-|[]].
        destruct (Ed _ eq_refl) as [Q|Q]; [|lia]. apply F1. rewrite app_owned. apply in_app_iff. left. unfold dflt. rewrite Q. now left.
      - apply F1. rewrite app_owned. apply in_app_iff. right. unfold guards in *. now rewrite <- Eg. }
    pose proof (steps_drop_source e src (a_world a1)) as S.
    assert (Hw : handle_of (w_mhandles (drop_source e src (a_world a1))) h = Some mi).
    { pose proof (gd_live _ _ _ _ _ _ G2) as Lv. rewrite Forall_forall in Lv. destruct (Lv h) as [mj Hj]; [now left|].
      rewrite Hj. f_equal. exact (passes_same _ _ _ _ _ (passes_steps _ _ _ S) Hh Hj). }
    destruct (ComponentFacts.settles_steps _ _ _ _ _ _ S Hm St) as (m' & Hm' & Ep' & St').
    assert (Rr' : rereads e (style_key (m_prefix m') (s_sheet src))) by (unfold style_key; rewrite Ep', Ep; exact Rr).
    destruct (good_creates _ _ _ _ _ _ h mi m' (style_key (m_prefix m') (s_sheet src)) G2 Hw Hm' Rr' St') as (w2 & x & Q).
    unfold use_style in X. rewrite C in X. cbv zeta in X. unfold new_style, manager_of in X. rewrite Hw, Hm', Q in X. discriminate.
  - destruct (try_into_spec _ _ _ _ _ K Ti) as (_ & -> & _). tauto.
Qed.
Print Assumptions use_style_panics_iff.

(** ** A theme, while hooks are used and another [Global] comes and goes *)

Definition theme_first : list elem := map EDo shop_ops.
Definition theme_mounted : prog :=
  match global_element shop_yew demo_env None None None (CText page_text) shop_prog with Some p => p | None => shop_prog end.
Definition theme_used : prog :=
  match use_css demo_env None None (CText page_text) theme_mounted with Some (p, _) => p | None => shop_prog end.
Definition theme_between : list elem :=
  [EGlobal None None None (CText (lit "margin: 0;")); EDo (CRender None card); EGlobal None (Some 1) None (CText (lit "margin: 1px;"))].
Definition theme_more : prog := match erun shop_yew demo_env theme_used theme_between with Some p => p | None => shop_prog end.
Definition theme_classed : prog := match style_class demo_env 3 theme_more with Some (p, _) => p | None => shop_prog end.
Definition theme_after : list elem := [EDo (CDo (PApp (AUnmount 1))); EUse None None (CText page_text)].
Definition theme_end : prog := match erun shop_yew demo_env theme_classed theme_after with Some p => p | None => shop_prog end.
Definition theme_all : list elem := EUse None None (CText page_text) :: theme_between ++ EClass 3 :: theme_after.

Lemma theme_starts : erun shop_yew demo_env (prog_start demo_page) theme_first = Some shop_prog.
Proof. vm_compute. reflexivity. Qed.
Lemma theme_mounts : global_element shop_yew demo_env None None None (CText page_text) shop_prog = Some theme_mounted.
Proof. vm_compute. reflexivity. Qed.
Lemma theme_uses : use_css demo_env None None (CText page_text) theme_mounted = Some (theme_used, 3).
Proof. vm_compute. reflexivity. Qed.
Lemma theme_goes_on : erun shop_yew demo_env theme_used theme_between = Some theme_more.
Proof. vm_compute. reflexivity. Qed.
Lemma theme_class : style_class demo_env 3 theme_more = Some (theme_classed, [lit "stylist-style-3"]).
Proof. vm_compute. reflexivity. Qed.
Lemma theme_ends : erun shop_yew demo_env theme_classed theme_after = Some theme_end.
Proof. vm_compute. reflexivity. Qed.
Lemma theme_runs : erun shop_yew demo_env theme_mounted theme_all = Some theme_end.
Proof. vm_compute. reflexivity. Qed.
Definition theme_default : mgr := nth 1 (w_mgrs (a_world (p_app theme_end))) (mk_mgr [] None true None [] 0).
Lemma theme_default_is :
  nth_error (w_mgrs (a_world (p_app theme_end))) 1 = Some theme_default /\ m_data theme_default = None /\ m_container theme_default = Some 0
  /\ m_prefix theme_default = lit "stylist" /\ w_draws (a_world (p_app theme_end)) = 7.
Proof. split; [|split; [|split; [|split]]]; vm_compute; reflexivity. Qed.
Lemma theme_context :
  context_is (p_app shop_prog) (p_app theme_mounted) None 1 /\ context_is (p_app theme_mounted) (p_app theme_used) None 1
  /\ mlive (a_world (p_app theme_end)) 1.
Proof. split; [|split]; (exists 1; first [split; vm_compute; reflexivity|vm_compute; reflexivity]). Qed.
Lemma head_in_page : in_document demo_page 0.
Proof. destruct browser_ex as (_ & _ & k & Hk & I & _). cbn in Hk. injection Hk as <-. exact I. Qed.

Example global_text_ex : exists id,
  page_says (a_world (p_app theme_end)) id (sheet_decls None demo_parsed) /\ ~ In id (page_ids demo_page).
Proof.
  destruct theme_default_is as (M1 & M2 & M3 & M4 & M5). destruct theme_context as (C1 & _).
  apply (global_text_takes_effect shop_yew demo_env demo_page theme_first shop_prog None None None page_text theme_mounted 1
    theme_all theme_end theme_default 0 demo_parsed theme_starts theme_mounts C1 theme_runs eq_refl eq_refl eq_refl M1 M2 M3 head_in_page).
  - rewrite M4. exact stylist_prefix.
  - reflexivity.
  - reflexivity.
  - apply names_fresh_ex. rewrite M5. lia.
  - apply grammar_text_parses_ex.
  - solve_closed.
Qed.
(** Its element is the one with this id; the other [Global] is gone. *)
Example global_text_is :
  texts_of (lit "stylist-global-style-2") (w_dom (a_world (p_app theme_end))) = [to_style_str None demo_parsed]
  /\ texts_of (lit "stylist-global-style-4") (w_dom (a_world (p_app theme_end))) = []
  /\ texts_of (lit "stylist-global-style-6") (w_dom (a_world (p_app theme_end))) = [].
Proof. split; [|split]; vm_compute; reflexivity. Qed.
Example use_style_text_ex :
  page_says (a_world (p_app theme_end)) (lit "stylist-style-3") (sheet_decls (Some (lit "stylist-style-3")) demo_parsed).
Proof.
  destruct theme_default_is as (M1 & M2 & M3 & M4 & M5). destruct theme_context as (_ & C2 & C3).
  assert (H : erun shop_yew demo_env (prog_start demo_page) (theme_first ++ [EGlobal None None None (CText page_text)]) = Some theme_mounted).
  { eapply erun_app; [exact theme_starts|]. cbn [erun estep]. now rewrite theme_mounts. }
  destruct (use_style_text_takes_effect shop_yew demo_env demo_page _ theme_mounted None None page_text theme_used 3 1
    theme_between theme_more theme_classed _ theme_after theme_end theme_default 0 demo_parsed H theme_uses C2 theme_goes_on eq_refl theme_class theme_ends eq_refl C3
    eq_refl eq_refl eq_refl M1 M2 M3 head_in_page) as (id & E & P); try reflexivity.
  - rewrite M4. exact stylist_prefix.
  - apply names_fresh_ex. rewrite M5. lia.
  - apply grammar_text_parses_ex.
  - solve_closed.
  - injection E as <-. exact P.
Qed.

(** Text that is not CSS panics, a text that is does not. *)
Lemma theme_can : can_style demo_env demo_page theme_more None (lit "stylist").
Proof. split; [|reflexivity]. right. destruct browser_ex as (_ & D & k & Hk & _ & T). split; auto. now exists k. Qed.
Lemma theme_more_reached : exists l, erun shop_yew demo_env (prog_start demo_page) l = Some theme_more.
Proof.
  exists (theme_first ++ EGlobal None None None (CText page_text) :: EUse None None (CText page_text) :: theme_between).
  eapply erun_app; [exact theme_starts|]. cbn [erun estep]. rewrite theme_mounts, theme_uses. cbn [option_map fst]. exact theme_goes_on.
Qed.
Example global_panics_ex :
  global_element shop_yew demo_env None (Some 1) None (CText (lit "color: red; }")) theme_more = None
  /\ global_element shop_yew demo_env None (Some 1) None (CText (lit "color: red;")) theme_more <> None.
Proof.
  destruct theme_more_reached as [l H].
  assert (M : forall t, may_render theme_more (Some 1) (CText t)).
  { intros t. split; [exact I|]. destruct (nth_error (a_globals (p_app theme_more)) 1) as [[g|]|] eqn:E; [eauto|vm_compute in E; discriminate..]. }
  pose proof (fun t => global_panics_iff shop_yew demo_env demo_page l theme_more None (Some 1) None (CText t) (lit "stylist") H (M t) theme_can
    (fun s _ D => False_ind _ (Bool.diff_false_true D))) as X. split.
  - apply X. vm_compute. reflexivity.
  - intros Y. apply X in Y. vm_compute in Y. discriminate.
Qed.
Example use_style_panics_ex :
  use_css demo_env None None (CText (lit "color: red; }")) theme_more = None
  /\ use_css demo_env None None (CText (lit "color: red;")) theme_more <> None.
Proof.
  destruct theme_more_reached as [l H].
  pose proof (fun t => use_style_panics_iff shop_yew demo_env demo_page l theme_more None None (CText t) (lit "stylist") H I
    (fun h E => False_ind _ (eq_ind None (fun o => match o with None => True | _ => False end) I _ E)) theme_can
    (fun s _ D => False_ind _ (Bool.diff_false_true D))) as X. split.
  - apply X. vm_compute. reflexivity.
  - intros Y. apply X in Y. vm_compute in Y. discriminate.
Qed.

(** [<Global css={css!("color: ${c}; a { width: ${ w}px; }", ..)} />]. *)
Definition macro_css : css := CSource (from_sheet None (erase_sheet (page_value 1))).
Definition macro_mounted : prog :=
  match global_element shop_yew demo_env None None None macro_css shop_prog with Some p => p | None => shop_prog end.
Lemma macro_mounts : global_element shop_yew demo_env None None None macro_css shop_prog = Some macro_mounted.
Proof. vm_compute. reflexivity. Qed.
Definition macro_default : mgr := nth 1 (w_mgrs (a_world (p_app macro_mounted))) (mk_mgr [] None true None [] 0).
Lemma macro_default_is :
  nth_error (w_mgrs (a_world (p_app macro_mounted))) 1 = Some macro_default /\ m_data macro_default = None /\ m_container macro_default = Some 0
  /\ m_prefix macro_default = lit "stylist" /\ w_draws (a_world (p_app macro_mounted)) = 3.
Proof. split; [|split; [|split; [|split]]]; vm_compute; reflexivity. Qed.
Example global_macro_ex : exists id,
  page_says (a_world (p_app macro_mounted)) id (sheet_decls None (page_filled "#00f")) /\ ~ In id (page_ids demo_page).
Proof.
  destruct page_evaluates as (E & V & _). destruct themed_default_is as (_ & _ & _ & _ & _ & M6 & M7).
  destruct macro_default_is as (M1 & M2 & M3 & M4 & M5).
  assert (Ps : parse (lit "color: ${c}; a { width: ${ w}px; }") = Parsed page_parsed) by (vm_compute; reflexivity).
  assert (M : sheet_macro page_lit any_expr (page_first :: page_rest) = Some page_expansion) by (cbn [sheet_macro page_first]; change (RLit _) with page_first; now rewrite E).
  assert (Sy : macro_says page_lit any_expr (page_env "#00f") (page_first :: page_rest) (page_filled "#00f")).
  { eapply ms_literal; [reflexivity|exact Ps|exact page_after_literal|apply page_fills]. }
  assert (Cl : closed_sheet (page_filled "#00f")) by solve_closed.
  assert (C : context_is (p_app shop_prog) (p_app macro_mounted) None 1) by (exists 1; split; vm_compute; reflexivity).
  apply (global_macro_takes_effect page_lit any_expr (page_first :: page_rest) page_expansion page_envs page_values 1 (page_env "#00f") (page_value 1)
    shop_yew demo_env demo_page theme_first shop_prog None None None macro_css macro_mounted 1 [] macro_mounted macro_default 0 (page_filled "#00f")
    M V M7 M6 Sy Cl theme_starts macro_mounts C eq_refl eq_refl eq_refl eq_refl M1 M2 M3 head_in_page).
  - rewrite M4. exact stylist_prefix.
  - reflexivity.
  - reflexivity.
  - apply names_fresh_ex. rewrite M5. lia.
  - reflexivity.
Qed.
