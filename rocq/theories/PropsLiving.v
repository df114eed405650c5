(** * PropsLiving: an application in the browser, over its whole life (C80). *)

From Coq Require Import String Ascii List NArith Bool Arith Lia.
From Verif Require Import SpecRender Str StrFacts Ast Render CssParser SheetCache Ids IdFacts Manager SpecManager
  ManagerFacts ManagerInv ManagerSteps ManagerCore ManagerProps Hydrate Hooks SpecHooks HookFacts HookOnly
  HookTame HookKeep PropsManager SpecProgress PropsProgress Create SpecCreate CreateFacts PropsCreate
  Component SpecComponent ComponentFacts PropsHydrate Provider ProviderFacts PropsComponent Tree SpecTree TreeFacts
  PropsTree Living SpecLiving LivingFacts SpecPage PropsPage.
Import ListNotations.
Local Open Scope list_scope.
Local Opaque parse to_style_str.

Lemma living_state y e page l p ms sm evs p1 n1 :
  crun y e (prog_start page) l = Some p -> managers_are p ms sm -> Forall (proper ms) evs ->
  nrun y e ms evs NEnd p = NNext p1 n1 -> exists ids, lstate e page ms sm ids p1 n1.
Proof.
  intros H M F R. apply pgood_creached in H. pose proof (lstate_begin _ _ _ _ _ _ H M) as S.
  destruct (lstate_run _ _ _ _ _ _ _ _ _ _ _ S F R) as (ids1 & S1 & _). eauto.
Qed.

(** ** Classes *)

(** However the application has gone on: a component that has been rendered since its provider
    last got another manager has the classes of its CSS in the manager that its provider has now
    (the default one if there is no provider); any other component still has the classes of its
    CSS in one manager of the application. *)
Theorem living_classes : forall y e page l p ms sm evs p1 n1 cur f b cls,
  crun y e (prog_start page) l = Some p -> managers_are p ms sm -> Forall (proper ms) evs ->
  nrun y e ms evs NEnd p = NNext p1 n1 -> In (cur, f, b, cls) (components None n1) ->
  (f = true -> exists mi, manager_here p1 sm cur mi
     /\ Forall2 (classes_in (a_world (p_app p1)) mi) (asks [] b) cls)
  /\ exists mi, manager_used p1 ms sm mi
     /\ Forall2 (classes_in (a_world (p_app p1)) mi) (asks [] b) cls.
Proof.
  intros y e page l p ms sm evs p1 n1 cur f b cls H M F R I. destruct (living_state _ _ _ _ _ _ _ _ _ _ H M F R) as [ids S].
  destruct (ngood_components ms sm p1 n1 None cur f b cls (ls_good _ _ _ _ _ _ _ S) ltac:(discriminate) I) as [C L].
  destruct f; cbn [comp_ok] in C.
  - split; [auto|]. destruct C as (mi & Hm & C). exists mi. split; [|exact C]. destruct cur as [k|]; [left|right; exact Hm]. exists k. split; [now apply L|exact Hm].
  - split; [discriminate|]. destruct C as (k & Lk & C). exists (sm k). split; [|exact C]. left. eauto.
Qed.
Print Assumptions living_classes.

Lemma here_later y e page ms sm ids p n evs p1 n1 cur mi :
  lstate e page ms sm ids p n -> Forall (proper ms) evs -> nrun y e ms evs n p = NNext p1 n1 ->
  (forall k, cur = Some k -> k < List.length ms) -> manager_here p sm cur mi ->
  manager_here p1 sm cur mi /\ mlive (a_world (p_app p1)) mi.
Proof.
  intros S F R L H. destruct (lstate_run _ _ _ _ _ _ _ _ _ _ _ S F R) as (ids1 & S1 & St & D & _).
  destruct cur as [k|]; cbn [manager_here] in *.
  - subst mi. split; auto. specialize (L k eq_refl). destruct (nth_error ms k) as [h|] eqn:E; [|apply nth_error_None in E; lia].
    exists h. apply (ln_ms _ _ _ _ _ _ (ls_node _ _ _ _ _ _ _ S1) k h E).
  - destruct H as (d & Ed & O). change (owns (wd p) d mi) in O. specialize (D d Ed). pose proof (ln_good _ _ _ _ _ _ (ls_node _ _ _ _ _ _ _ S1)) as (_ & Ga & _).
    pose proof (gd_live _ _ _ _ _ _ Ga) as L1. unfold dflt in L1. rewrite D in L1. apply Forall_inv in L1. destruct L1 as [mj Hj].
    pose proof (passes_steps _ _ _ St) as [_ Pa]. pose proof (handle_nth _ _ _ O) as X.
    assert (O1 : owns (a_world (p_app p1)) d mi).
    { destruct (Pa d) as [Y|Y]; [apply nth_error_Some; congruence| |].
      - unfold owns, handle_of. fold (wd p1). now rewrite Y, X.
      - unfold handle_of in Hj. fold (wd p1) in Hj. now rewrite Y in Hj. }
    split; [exists d; auto|exists d; exact O1].
Qed.

(** Two components with the same CSS below providers of the same manager have the same classes,
    wherever they are and whenever they were rendered, if both are fresh. *)
Theorem living_same_classes : forall y e page l p ms sm evs p1 n1 evs' p2 n2 cur b cls b' cls',
  crun y e (prog_start page) l = Some p -> managers_are p ms sm ->
  Forall (proper ms) evs -> nrun y e ms evs NEnd p = NNext p1 n1 ->
  Forall (proper ms) evs' -> nrun y e ms evs' n1 p1 = NNext p2 n2 ->
  In (cur, true, b, cls) (components None n1) -> In (cur, true, b', cls') (components None n2) ->
  asks [] b = asks [] b' -> cls = cls'.
Proof.
  intros y e page l p ms sm evs p1 n1 evs' p2 n2 cur b cls b' cls' H M F R F' R' I I' Ea.
  destruct (living_state _ _ _ _ _ _ _ _ _ _ H M F R) as [ids S].
  destruct (lstate_run _ _ _ _ _ _ _ _ _ _ _ S F' R') as (ids2 & S2 & St & _).
  destruct (ngood_components ms sm p1 n1 None _ _ _ _ (ls_good _ _ _ _ _ _ _ S) ltac:(discriminate) I) as [(mi & Hm & C) L].
  destruct (ngood_components ms sm p2 n2 None _ _ _ _ (ls_good _ _ _ _ _ _ _ S2) ltac:(discriminate) I') as [(mi2 & Hm2 & C2) _].
  destruct (here_later _ _ _ _ _ _ _ _ _ _ _ _ _ S F' R' L Hm) as [Hm' Lv].
  assert (mi2 = mi).
  { destruct cur as [k|]; cbn [manager_here] in *; [congruence|]. destruct Hm2 as (d & Ed & O), Hm' as (d' & Ed' & O'). unfold owns in *. congruence. }
  subst mi2. pose proof (ln_good _ _ _ _ _ _ (ls_node _ _ _ _ _ _ _ S)) as (_ & Ga & _). pose proof (ln_good _ _ _ _ _ _ (ls_node _ _ _ _ _ _ _ S2)) as (_ & Ga2 & _).
  pose proof (good_cored _ _ _ _ _ _ Ga) as Co. pose proof (good_cored _ _ _ _ _ _ Ga2) as Co2. rewrite <- Ea in C2.
  clear I I' Ea. revert cls' C2. induction C as [|x cl xs cls Hx C IH]; intros cls' C2; inversion C2; subst; auto. f_equal; [|now apply IH].
  eapply (classes_in_fun e); [exact Co2| |eassumption]. eapply classes_in_steps; eauto.
Qed.
Print Assumptions living_same_classes.

(** ** Nothing is ever unstyled *)

(** In the browser, with managers whose styles go into the page: the page says what the CSS of
    every component says, under the classes it has, also while it waits to be rendered again. *)
Theorem living_takes_effect : forall y e page l p ms sm evs p1 n1 cur f b cls,
  crun y e (prog_start page) l = Some p -> cloaded l = [] -> managers_are p ms sm ->
  Forall (proper ms) evs -> Forall loads_nothing evs ->
  nrun y e ms evs NEnd p = NNext p1 n1 -> In (cur, f, b, cls) (components None n1) ->
  e_wasm e = true -> e_document e = true -> names_fresh e page (w_draws (a_world (p_app p1))) ->
  (forall mi m, manager_used p1 ms sm mi -> nth_error (w_mgrs (a_world (p_app p1))) mi = Some m ->
     m_data m = None /\ plain_prefix (m_prefix m) /\ exists k, m_container m = Some k /\ in_document page k) ->
  Forall2 (fun x cl => closed_sheet (snd x) ->
     exists id, cl = id :: match fst x with Some name => [name] | None => [] end
       /\ page_says (a_world (p_app p1)) id (sheet_decls (Some id) (snd x))) (asks [] b) cls.
Proof.
  intros y e page l p ms sm evs p1 n1 cur f b cls H Cl M F Ln R I W D Nf Pl.
  destruct (living_classes _ _ _ _ _ _ _ _ _ _ _ _ _ _ H M F R I) as [_ (mi & U & C)].
  apply pgood_creached in H. rewrite Cl in H. pose proof (lstate_begin _ _ _ _ _ _ H M) as S.
  destruct (lstate_run _ _ _ _ _ _ _ _ _ _ _ S F R) as (ids1 & S1 & _ & _ & Nd). destruct (Nd Logic.I Ln) as [_ ->].
  pose proof (ln_good _ _ _ _ _ _ (ls_node _ _ _ _ _ _ _ S1)) as G.
  eapply Forall2_weaken; [|exact C]. intros [loc s] cl Ci Cs. pose proof Ci as (m & _ & _ & Hm & _).
  destruct (Pl mi m U Hm) as (A1 & A2 & k & A3 & A4). eapply classes_say; eauto.
Qed.
Print Assumptions living_takes_effect.

(** ** It goes on *)

Lemma run_safe y e page ms sm (M : option (list record) -> Prop) : M None -> forall evs ids p n,
  lstate e page ms sm ids p n -> styles_ready e page p ms sm -> renders_all e p ms sm M n ->
  Forall (proper ms) evs -> Forall (event_renders e p ms sm) evs ->
  (forall path k, In (EManager path k) evs -> forall d, M d -> d = None) ->
  (nrun y e ms evs n p = NPanic -> exists before o after p1 n1, evs = before ++ EDo o :: after
     /\ nrun y e ms before n p = NNext p1 n1 /\ pstep y e p1 o = None)
  /\ forall p1 n1, nrun y e ms evs n p = NNext p1 n1 -> exists ids1, lstate e page ms sm ids1 p1 n1
     /\ styles_ready e page p1 ms sm /\ renders_all e p1 ms sm M n1.
Proof.
  intros MN. induction evs as [|ev evs IH]; intros ids p n S Rs Ra F Fr Mn; cbn [nrun].
  { split; [discriminate|]. intros p1 n1 [= <- <-]. exists ids. split; [exact S|split; [exact Rs|exact Ra]]. }
  pose proof (Forall_inv F) as P. apply Forall_inv_tail in F. pose proof (Forall_inv Fr) as Pr. apply Forall_inv_tail in Fr.
  assert (Mn' : forall path k, In (EManager path k) evs -> forall d, M d -> d = None) by (intros; eapply Mn; [right; eauto|eauto]).
  destruct (nstep y e ms ev n p) as [p1 n1| |] eqn:E.
  - assert (R1 : nrun y e ms [ev] n p = NNext p1 n1) by (cbn [nrun]; now rewrite E).
    destruct (lstate_run y _ _ _ _ [ev] _ _ _ _ _ S (Forall_cons _ P (Forall_nil _)) R1) as (ids1 & S1 & St & _).
    assert (Ra1 : renders_all e p1 ms sm M n1).
    { eapply (safe_goes e page ms sm M ids p p1); [apply S|exact St|].
      refine (shape_step y e ms sm _ _ _ M _ ev n p p1 n1 Ra Pr E). intros d ->. exact MN. }
    assert (Rs1 : styles_ready e page p1 ms sm) by (eapply (styles_ready_goes e page ms sm ids p p1); [apply S|exact St|exact Rs]).
    assert (Fr1 : Forall (event_renders e p1 ms sm) evs).
    { eapply Forall_impl; [|exact Fr]. intros ev' Q. revert Q. apply event_weaken; auto.
      intros b. apply (rereads_all_goes e page ms sm ids p p1); [apply S|exact St]. }
    destruct (IH _ _ _ S1 Rs1 Ra1 F Fr1 Mn') as [A B]. split; [|exact B]. intros Pn. destruct (A Pn) as (be & o & af & p2 & n2 & -> & R & Po).
    exists (ev :: be), o, af, p2, n2. split; [reflexivity|]. split; [|exact Po]. cbn [nrun]. now rewrite E.
  - split; [intros _|discriminate]. destruct (is_other ev) eqn:Io.
    + destruct ev as [| | | | |o]; try discriminate. exists [], o, evs, p, n. split; [reflexivity|]. split; [reflexivity|].
      cbn [nstep] in E. destruct (forallb _ _); [|discriminate]. destruct (pstep y e p o); [discriminate|reflexivity].
    + exfalso. refine (step_safe y e page ms sm M ids p n ev S Rs Ra P Pr Io _ E). intros path k ->. apply (Mn path k). now left.
  - destruct (IH _ _ _ S Rs Ra F Fr Mn') as [A B]. split; [|exact B]. intros Pn. destruct (A Pn) as (be & o & af & p2 & n2 & -> & R & Po).
    exists (ev :: be), o, af, p2, n2. split; [reflexivity|]. split; [|exact Po]. cbn [nrun]. now rewrite E.
Qed.

(** Whatever has happened so far, whatever comes next: if styles can be put somewhere and the CSS
    can be read back, no rendering, mounting or destroying panics (other code may), nor does
    giving another manager to a provider, if no provider has data from a server; and all that
    waits can be rendered. *)
Theorem living_never_panics : forall y e page l p ms sm evs p1 n1 evs',
  crun y e (prog_start page) l = Some p -> managers_are p ms sm -> Forall (proper ms) evs ->
  nrun y e ms evs NEnd p = NNext p1 n1 ->
  styles_ready e page p1 ms sm -> renders_all e p1 ms sm (fun _ => True) n1 ->
  Forall (proper ms) evs' -> Forall (event_renders e p1 ms sm) evs' ->
  (forall path k, In (EManager path k) evs' -> renders_all e p1 ms sm (fun d => d = None) n1) ->
  (nrun y e ms evs' n1 p1 = NPanic -> exists before o after p2 n2, evs' = before ++ EDo o :: after
     /\ nrun y e ms before n1 p1 = NNext p2 n2 /\ pstep y e p2 o = None)
  /\ forall p2 n2, nrun y e ms evs' n1 p1 = NNext p2 n2 ->
     exists paths p3 n3, nrun y e ms (map ERender paths) n2 p2 = NNext p3 n3 /\ settled n3 = true.
Proof.
  intros y e page l p ms sm evs p1 n1 evs' H M F R Rs Ra F' Fr Mn. destruct (living_state _ _ _ _ _ _ _ _ _ _ H M F R) as [ids S].
  assert (Q : forall M' : option (list record) -> Prop, M' None -> renders_all e p1 ms sm M' n1 -> (forall path k, In (EManager path k) evs' -> forall d, M' d -> d = None) ->
    (nrun y e ms evs' n1 p1 = NPanic -> exists before o after p2 n2, evs' = before ++ EDo o :: after
       /\ nrun y e ms before n1 p1 = NNext p2 n2 /\ pstep y e p2 o = None)
    /\ forall p2 n2, nrun y e ms evs' n1 p1 = NNext p2 n2 ->
       exists paths p3 n3, nrun y e ms (map ERender paths) n2 p2 = NNext p3 n3 /\ settled n3 = true).
  { intros M' MN Ra' Mn'. destruct (run_safe y e page ms sm M' MN evs' ids p1 n1 S Rs Ra' F' Fr Mn') as [A B]. split; [exact A|].
    intros p2 n2 R2. destruct (B p2 n2 R2) as (ids2 & S2 & Rs2 & Ra2).
    exact (settles_run y e page ms sm M' MN (todo n2) p2 n2 ids2 (le_n _) S2 Rs2 Ra2). }
  destruct (existsb (fun ev => match ev with EManager _ _ => true | _ => false end) evs') eqn:Ex.
  - apply existsb_exists in Ex. destruct Ex as (ev & I & Ev). destruct ev as [| | | |path k|]; try discriminate.
    apply (Q (fun d => d = None)); auto. exact (Mn path k I).
  - apply (Q (fun _ => True)); auto. intros path k I. exfalso. assert (Ht : existsb (fun ev => match ev with EManager _ _ => true | _ => false end) evs' = true).
    { apply existsb_exists. eauto. } congruence.
Qed.
Print Assumptions living_never_panics.

(** Rendering again when all is rendered changes no class, makes no style and draws no random
    number. *)
Theorem living_stable : forall y e page l p ms sm evs p1 n1 paths p2 n2,
  crun y e (prog_start page) l = Some p -> managers_are p ms sm -> Forall (proper ms) evs ->
  nrun y e ms evs NEnd p = NNext p1 n1 -> settled n1 = true ->
  nrun y e ms (map ERender paths) n1 p1 = NNext p2 n2 ->
  n2 = n1 /\ w_draws (a_world (p_app p2)) = w_draws (a_world (p_app p1))
  /\ nothing_new (a_world (p_app p1)) (a_world (p_app p2)).
Proof.
  intros y e page l p ms sm evs p1 n1 paths p2 n2 H M F R Se R2. destruct (living_state _ _ _ _ _ _ _ _ _ _ H M F R) as [ids S].
  clear H M F R. revert ids p1 S R2. induction paths as [|path paths IH]; intros ids p1 S R2; cbn [map nrun] in R2.
  { injection R2 as <- <-. split; [reflexivity|]. split; [reflexivity|]. split; [reflexivity|]. split; [reflexivity|]. intros mi k cid. tauto. }
  destruct (nstep y e ms (ERender path) n1 p1) as [p3 n3| |] eqn:E; [|discriminate|eapply IH; eauto].
  assert (R1 : nrun y e ms [ERender path] n1 p1 = NNext p3 n3) by (cbn [nrun]; now rewrite E).
  assert (Pr : proper ms (ERender path)) by (split; exact Logic.I).
  destruct (lstate_run y _ _ _ _ [ERender path] _ _ _ _ _ S (Forall_cons _ Pr (Forall_nil _)) R1) as (ids1 & S1 & _).
  cbn [nstep] in E. destruct (settled_again y e page ms sm path n1 ids None None p1 p3 n3 (ls_node _ _ _ _ _ _ _ S) Logic.I
    (ls_good _ _ _ _ _ _ _ S) (ls_plain _ _ _ _ _ _ _ S) Se E) as (-> & D & Nn).
  destruct (IH _ _ S1 R2) as (-> & D2 & N2). split; [reflexivity|]. split; [congruence|]. destruct Nn as (A1 & A2 & A3), N2 as (B1 & B2 & B3). split; [congruence|]. split; [congruence|]. intros mi k cid. rewrite B3. apply A3.
Qed.
Print Assumptions living_stable.

(** ** What it owns *)

(** The application owns two handles per mounted provider and, if a component was rendered outside
    of providers, the default manager; nothing else, however often components were rendered and
    providers came and went; when all is destroyed, nothing. *)
Theorem living_gives_back : forall y e page l p ms sm evs p1 n1 h mi,
  crun y e (prog_start page) l = Some p -> managers_are p ms sm -> Forall (proper ms) evs ->
  Forall (fun ev => is_other ev = false /\ hands_nothing ev) evs ->
  nrun y e ms evs NEnd p = NNext p1 n1 ->
  (owns (a_world (p_app p1)) h mi ->
     owns (a_world (p_app p)) h mi \/ In h (node_handles n1) \/ a_default (p_app p1) = Some h)
  /\ (owns (a_world (p_app p)) h mi -> owns (a_world (p_app p1)) h mi).
Proof.
  intros y e page l p ms sm evs p1 n1 h mi H M F Fo R. apply pgood_creached in H. pose proof (lstate_begin _ _ _ _ _ _ H M) as S.
  destruct (back_run y _ _ _ _ _ _ _ _ _ _ S F R Fo Logic.I) as [A B]. split.
  - intros O. destruct (A h mi O) as [[]|]; auto.
  - intros O. apply (B h mi O). intros [].
Qed.
Print Assumptions living_gives_back.

(** ** From hydration on *)

(** No provider that is finished (there are none in the browser). *)
Fixpoint browser_tree (l : live) : bool :=
  match l with
  | LEnd => true
  | LCompWait _ _ nx | LProvWait _ _ _ nx => browser_tree nx
  | LComp _ _ ch nx | LProv _ _ ch nx => browser_tree ch && browser_tree nx
  | LProvDone _ _ _ _ => false
  end.
Lemma of_begin v : of_live (begin v) = waiting v NEnd.
Proof. induction v; cbn; congruence. Qed.
Lemma browser_begin v : browser_tree (begin v) = true.
Proof. induction v; cbn; auto. Qed.
Lemma hydration_step y e ms : forall path l ctx p p1 l1, browser_tree l = true ->
  lstep y e false ms ctx path l p = LNext p1 l1 ->
  at_path (render_at y e ms) ctx path (of_live l) p = NNext p1 (of_live l1) /\ browser_tree l1 = true.
Proof.
  induction path as [|[] path IH]; intros l ctx p p1 l1 B H; destruct l as [|b ch nx|b cls ch nx|k d ch nx|k v ch nx|k st ch nx];
    cbn [lstep of_live at_path render_at browser_tree] in *; try discriminate.
  - unfold rendered. destruct (render_component y e ctx b p) as [((p2 & cls) & fr)|]; [|discriminate]. injection H as <- <-.
    cbn [of_live browser_tree]. now rewrite of_begin, browser_begin.
  - destruct (nth_error ms k); [|discriminate]. destruct (provide e n d (p_app p)) as [(a & v)|]; [|discriminate]. injection H as <- <-.
    cbn [of_live browser_tree]. now rewrite of_begin, browser_begin.
  - apply andb_prop in B. destruct B as [B1 B2]. destruct (lstep y e false ms ctx path ch p) as [p2 c2| |] eqn:E; try discriminate. injection H as <- <-.
    destruct (IH _ _ _ _ _ B1 E) as [-> Bc]. cbn. now rewrite Bc, B2.
  - apply andb_prop in B. destruct B as [B1 B2]. destruct (lstep y e false ms (Some (v_context v)) path ch p) as [p2 c2| |] eqn:E; try discriminate. injection H as <- <-.
    destruct (IH _ _ _ _ _ B1 E) as [-> Bc]. cbn. now rewrite Bc, B2.
  - destruct (lstep y e false ms ctx path nx p) as [p2 c2| |] eqn:E; try discriminate. injection H as <- <-.
    destruct (IH _ _ _ _ _ B E) as [-> Bc]. now cbn.
  - apply andb_prop in B. destruct B as [B1 B2]. destruct (lstep y e false ms ctx path nx p) as [p2 c2| |] eqn:E; try discriminate. injection H as <- <-.
    destruct (IH _ _ _ _ _ B2 E) as [-> Bc]. cbn. now rewrite B1, Bc.
  - destruct (lstep y e false ms ctx path nx p) as [p2 c2| |] eqn:E; try discriminate. injection H as <- <-.
    destruct (IH _ _ _ _ _ B E) as [-> Bc]. now cbn.
  - apply andb_prop in B. destruct B as [B1 B2]. destruct (lstep y e false ms ctx path nx p) as [p2 c2| |] eqn:E; try discriminate. injection H as <- <-.
    destruct (IH _ _ _ _ _ B2 E) as [-> Bc]. cbn. now rewrite B1, Bc.
Qed.

(** An application that hydrates what came from a server is one whose life starts with this, so
    that all theorems here hold of it as it goes on. *)
Theorem living_from_hydration : forall y e ms v schedule p p1 l1,
  lrun y e false ms None schedule (begin v) p = LNext p1 l1 ->
  exists paths, incl paths schedule
    /\ nrun y e ms (EMount [] v :: map ERender paths) NEnd p = NNext p1 (of_live l1).
Proof.
  intros y e ms v sch p p1 l1 R. cbn [nrun nstep at_path]. unfold mount_at. rewrite <- of_begin.
  pose proof (browser_begin v) as B. revert p B R. generalize (begin v) as l. clear v.
  induction sch as [|path sch IH]; intros l p B R; cbn [lrun] in R.
  { injection R as <- <-. exists []. split; [easy|reflexivity]. }
  destruct (lstep y e false ms None path l p) as [p2 l2| |] eqn:E; [|discriminate|].
  - destruct (hydration_step _ _ _ _ _ _ _ _ _ B E) as [St B2]. destruct (IH _ _ B2 R) as (paths & I & Q).
    exists (path :: paths). split. { intros x [<-|Ix]; [now left|right; auto]. } cbn [map nrun nstep]. now rewrite St.
  - destruct (IH _ _ B R) as (paths & I & Q). exists paths. split; [|exact Q]. intros x Ix. right. auto.
Qed.
Print Assumptions living_from_hydration.

Lemma sgood_sent ms sm W : forall s cur, sgood ms sm W cur s -> finished s = true ->
  all_of_view (plain_body []) (fun k => k < List.length ms) (fun _ => True) (sent s).
Proof.
  induction s as [|b ch nx IHn|b cls ch IHc nx IHn|k d ch nx IHn|k v ch IHc nx IHn|k st ch IHc nx IHn];
    intros cur S F; cbn [sgood sent finished all_of_view] in *; try discriminate; auto; apply andb_prop in F; destruct F as [F1 F2].
  - destruct S as (_ & P & S1 & S2). split; [exact P|]. split; eauto.
  - destruct S as ((L & _) & _ & _ & S1 & S2). split; [split; [exact L|exact Logic.I]|]. split; eauto.
Qed.
Lemma agrees_components : forall s c cur x b cls, agrees s c -> all_shown c = true ->
  In (x, b, cls) (served_components cur s) -> In (x, true, b, cls) (components cur (of_live c)).
Proof.
  induction s as [|b ch nx IHn|b cls ch IHc nx IHn|k d ch nx IHn|k v ch IHc nx IHn|k st ch IHc nx IHn]; intros c cur x b0 cls0 A Sh I;
    destruct c; cbn [agrees all_shown served_components of_live components] in *; try contradiction; try discriminate; apply andb_prop in Sh; destruct Sh as [Sh1 Sh2].
  - destruct A as (-> & -> & A1 & A2). destruct I as [E|I]; [injection E as <- <- <-; now left|]. right. apply in_or_app.
    apply in_app_or in I. destruct I; [left|right]; eauto.
  - destruct A as (-> & A1 & A2). apply in_or_app. apply in_app_or in I. destruct I; [left|right]; eauto.
Qed.

(** The classes a server has sent are those a component gets in the browser for the same CSS below
    a provider of the same manager, not only when it is hydrated but for the whole life of the
    application. *)
Theorem living_keeps_served_classes :
  forall ys es pages ls p ms sm v schedule p1 served_tree yc ec pagec lc p' ms' cm schedule' p2 shown evs p3 n3 cur b cls b' cls',
  (* the server *)
  crun ys es (prog_start pages) ls = Some p ->
  managers_are p ms sm -> well_formed (List.length ms) false v ->
  (forall k, k < List.length ms -> new_collector (a_world (p_app p)) (sm k)) ->
  lrun ys es true ms None schedule (begin v) p = LNext p1 served_tree -> finished served_tree = true ->
  (* the browser hydrates *)
  crun yc ec (prog_start pagec) lc = Some p' ->
  managers_are p' ms' cm -> List.length ms' = List.length ms ->
  (forall k, k < List.length ms -> empty_manager (a_world (p_app p')) (cm k)
     /\ same_prefix (a_world (p_app p)) (sm k) (a_world (p_app p')) (cm k)) ->
  (forall k k', k < List.length ms -> k' < List.length ms -> cm k = cm k' -> sm k = sm k') ->
  lrun yc ec false ms' None schedule' (begin (sent served_tree)) p' = LNext p2 shown -> all_shown shown = true ->
  (* and goes on *)
  Forall (proper ms') evs -> nrun yc ec ms' evs (of_live shown) p2 = NNext p3 n3 ->
  In (cur, b, cls) (served_components None served_tree) ->
  In (cur, true, b', cls') (components None n3) -> asks [] b = asks [] b' -> cls' = cls.
Proof.
  intros ys es pages ls p ms sm v sch p1 s yc ec pagec lc p' ms' cm sch' p2 c evs p3 n3 cur b cls b' cls' H M W Nc R F H' M' Ln Em Sm R2 Sh Fe R3 I1 I2 Ea.
  destruct (tree_hydrates _ _ _ _ _ _ _ _ _ _ _ _ _ _ _ _ _ _ sch' H M W Nc R F H' M' Ln Em Sm) as (p2' & c' & R2' & Ag & _).
  rewrite R2 in R2'. injection R2' as <- <-. destruct (living_from_hydration _ _ _ _ _ _ _ _ R2) as (paths & _ & Rl).
  symmetry. eapply (living_same_classes yc ec pagec lc p' ms' cm (EMount [] (sent s) :: map ERender paths) p2 (of_live c) evs p3 n3 cur b cls b' cls' H' M' _ Rl Fe R3);
    [|exact I2|exact Ea].
  eapply agrees_components; eauto.
  Unshelve. constructor.
  - split; [|exact Logic.I]. cbn [all_of_event]. rewrite Ln. apply pgood_creached in H.
    pose proof (sstate_begin es pages _ ms sm p v H M W Nc) as S. pose proof (sstate_run _ _ _ _ _ _ _ _ _ _ _ S R) as S1.
    eapply sgood_sent; [exact (ss_good _ _ _ _ _ _ _ S1)|exact F].
  - apply Forall_forall. intros ev Iv. apply in_map_iff in Iv. destruct Iv as (x & <- & _). split; exact Logic.I.
Qed.
Print Assumptions living_keeps_served_classes.

(** ** A life *)

(** A component outside of providers, and a provider with two components.  Then the provider gets
    the other manager, and one of the components is rendered again, the other not yet. *)
Definition life_view : view := VComp badge VEnd (VProv 0 None (VComp panel (VComp badge VEnd VEnd) VEnd) VEnd).
Definition life_first : list event :=
  EMount [] life_view :: map ERender [[]; [false]; [false; true]; [false; true; true]].
Definition life_then : list event :=
  [EManager [false] 1; ERender [false; true]; EDo (PApp (AOp (OBuild (lit "other") (Some 1) true false)))].
Definition life_end : list event := [EUnmount [false] true; EUnmount [] true].
Definition life_at (evs : list event) : prog * node :=
  match nrun shop_yew demo_env [1; 0] evs NEnd client_prog with NNext p n => (p, n) | _ => (client_prog, NEnd) end.
Lemma life_runs : nrun shop_yew demo_env [1; 0] life_first NEnd client_prog = NNext (fst (life_at life_first)) (snd (life_at life_first))
  /\ nrun shop_yew demo_env [1; 0] (life_first ++ life_then) NEnd client_prog
     = NNext (fst (life_at (life_first ++ life_then))) (snd (life_at (life_first ++ life_then)))
  /\ nrun shop_yew demo_env [1; 0] life_then (snd (life_at life_first)) (fst (life_at life_first))
     = NNext (fst (life_at (life_first ++ life_then))) (snd (life_at (life_first ++ life_then)))
  /\ nrun shop_yew demo_env [1; 0] (life_first ++ life_end) NEnd client_prog = NNext (fst (life_at (life_first ++ life_end))) NEnd.
Proof. split; [|split; [|split]]; vm_compute; reflexivity. Qed.
Lemma life_components :
  components None (snd (life_at life_first)) =
    [(None, true, badge, [[lit "stylist-style-0"]]);
     (Some 0, true, panel, [[lit "app-style-1"]; [lit "app-style-2"; lit "Panel-panel_rs-9"]]);
     (Some 0, true, badge, [[lit "app-style-1"]])]
  /\ components None (snd (life_at (life_first ++ life_then))) =
    [(None, true, badge, [[lit "stylist-style-0"]]);
     (Some 1, true, panel, [[lit "side-style-3"]; [lit "side-style-4"; lit "Panel-panel_rs-9"]]);
     (Some 1, false, badge, [[lit "app-style-1"]])].
Proof. split; vm_compute; reflexivity. Qed.
Lemma life_proper : Forall (proper [1; 0]) life_first /\ Forall (proper [1; 0]) (life_first ++ life_then) /\ Forall (proper [1; 0]) life_then
  /\ Forall (proper [1; 0]) (life_first ++ life_end).
Proof.
  split; [|split; [|split]]; repeat constructor; cbn; auto 10; intros h [].
Qed.

(** The component that was rendered again has the classes of the manager it has now; the other one
    still has those of a manager of the application. *)
Example living_classes_ex :
  Forall2 (classes_in (a_world (p_app (fst (life_at (life_first ++ life_then))))) 0) (asks [] panel)
    [[lit "side-style-3"]; [lit "side-style-4"; lit "Panel-panel_rs-9"]]
  /\ exists mi, manager_used (fst (life_at (life_first ++ life_then))) [1; 0] client_managers mi
     /\ Forall2 (classes_in (a_world (p_app (fst (life_at (life_first ++ life_then))))) mi) (asks [] badge) [[lit "app-style-1"]].
Proof.
  destruct life_runs as (_ & R & _). destruct life_proper as (_ & F & _). destruct life_components as [_ C].
  split.
  - destruct (living_classes shop_yew demo_env demo_page client_ops client_prog [1; 0] client_managers _ _ _ (Some 1) true panel
      [[lit "side-style-3"]; [lit "side-style-4"; lit "Panel-panel_rs-9"]] client_run client_managers_are F R) as [A _]; [rewrite C; right; now left|].
    destruct (A eq_refl) as (mi & Hm & Q). cbn [manager_here client_managers] in Hm. subst mi. exact Q.
  - destruct (living_classes shop_yew demo_env demo_page client_ops client_prog [1; 0] client_managers _ _ _ (Some 1) false badge
      [[lit "app-style-1"]] client_run client_managers_are F R) as [_ A]; [rewrite C; right; right; now left|]. exact A.
Qed.
(** The component outside of providers keeps its class. *)
Example living_same_classes_ex : forall cls', In (None, true, badge, cls') (components None (snd (life_at (life_first ++ life_then)))) ->
  cls' = [[lit "stylist-style-0"]].
Proof.
  intros cls' I. destruct life_runs as (R & _ & R2 & _). destruct life_proper as (F & _ & F2 & _). destruct life_components as [C _]. symmetry.
  pose proof (living_same_classes shop_yew demo_env demo_page client_ops client_prog [1; 0] client_managers _ _ _ _ _ _ None badge [[lit "stylist-style-0"]] badge cls'
    client_run client_managers_are F R F2 R2) as Q. rewrite C in Q. apply Q; [left; reflexivity|exact I|reflexivity].
Qed.

Local Notation life_prog := (fst (life_at (life_first ++ life_then))).
Lemma life_managers mi m : manager_used life_prog [1; 0] client_managers mi -> nth_error (w_mgrs (a_world (p_app life_prog))) mi = Some m ->
  m_data m = None /\ plain_prefix (m_prefix m) /\ m_append m = true /\ exists k, m_container m = Some k /\ k = 0.
Proof.
  intros U H. assert (D : mi = 0 \/ mi = 1 \/ mi = 2).
  { destruct U as [(k & L & ->)|(d & Ed & O)]; [unfold client_managers; cbn in L; lia|].
    assert (a_default (p_app life_prog) = Some 2) by (vm_compute; reflexivity). rewrite H0 in Ed. injection Ed as <-.
    assert (owns (a_world (p_app life_prog)) 2 2) by (vm_compute; reflexivity). unfold owns in *. rewrite O in H1. injection H1 as ->. auto. }
  destruct D as [ -> |[ -> | -> ]]; vm_compute in H; injection H as <-; (split; [reflexivity|split; [split; [reflexivity|repeat constructor]|split; [reflexivity|exists 0; split; reflexivity]]]).
Qed.
Lemma first_of {A B} (R : A -> B -> Prop) a l b m : Forall2 R (a :: l) (b :: m) -> R a b.
Proof. now inversion 1. Qed.
Lemma life_loads : Forall loads_nothing (life_first ++ life_then).
Proof.
  repeat (apply Forall_cons; [split; [cbn; auto 10|intros o E; try discriminate E; injection E as <-; reflexivity]|]). apply Forall_nil.
Qed.
(** The page styles the component that still waits. *)
Example living_takes_effect_ex :
  page_says (a_world (p_app life_prog)) (lit "app-style-1") (sheet_decls (Some (lit "app-style-1")) (PropsManager.demo_sheet "blue")).
Proof.
  destruct life_runs as (_ & R & _). destruct life_proper as (_ & F & _). destruct life_components as [_ C].
  pose proof life_loads as Ln.
  assert (Q : Forall2 (fun x cl => closed_sheet (snd x) ->
     exists id, cl = id :: match fst x with Some name => [name] | None => [] end
       /\ page_says (a_world (p_app life_prog)) id (sheet_decls (Some id) (snd x))) (asks [] badge) [[lit "app-style-1"]]).
  { pose proof (living_takes_effect shop_yew demo_env demo_page client_ops client_prog [1; 0] client_managers _ _ _ (Some 1) false badge
      [[lit "app-style-1"]] client_run eq_refl client_managers_are F Ln R) as T. rewrite C in T. apply T; [right; right; left; reflexivity|reflexivity|reflexivity| |].
    - apply names_fresh_ex. assert (E : w_draws (a_world (p_app life_prog)) = 5) by (vm_compute; reflexivity). rewrite E. lia.
    - intros mi m U H. destruct (life_managers mi m U H) as (A1 & A2 & _ & k & A3 & ->). split; [exact A1|]. split; [exact A2|]. exists 0. split; [exact A3|].
      destruct browser_ex as (_ & _ & k & Hk & I & _). cbn in Hk. injection Hk as <-. exact I. }
  apply first_of in Q. destruct (Q blue_closed) as (id & E & P). injection E as <-. exact P.
Qed.
Lemma life_no_data : all_of_node (fun _ => True) (fun _ => True) (fun d => d = None) (fun d => d = None) (snd (life_at (life_first ++ life_then))).
Proof. vm_compute. auto 20. Qed.
(** Whatever is rendered, mounted, destroyed or provided next does not panic. *)
Example living_never_panics_ex : forall evs, Forall (proper [1; 0]) evs -> Forall loads_nothing evs -> Forall (fun ev => is_other ev = false) evs ->
  exists p2 n2, nrun shop_yew demo_env [1; 0] evs (snd (life_at (life_first ++ life_then))) life_prog = NNext p2 n2
  /\ exists paths p3 n3, nrun shop_yew demo_env [1; 0] (map ERender paths) n2 p2 = NNext p3 n3 /\ settled n3 = true.
Proof.
  intros evs Fe Ln Io. destruct life_runs as (_ & R & _). destruct life_proper as (_ & F & _).
  assert (Ra : forall b, rereads_all demo_env life_prog [1; 0] client_managers b).
  { intros b x _. split; [intros D; discriminate|]. intros k m _ _ D. discriminate. }
  assert (Sr : styles_ready demo_env demo_page life_prog [1; 0] client_managers).
  { split.
    - split; [|reflexivity]. right. destruct browser_ex as (_ & D & k & Hk & _ & T). split; [exact D|]. exists k. split; [exact Hk|exact T].
    - intros k m L H. destruct (life_managers (client_managers k) m) as (_ & _ & A & k' & B & ->); [left; exists k; split; [exact L|reflexivity]|exact H|].
      right. right. split; [reflexivity|]. split; [exact A|]. exists 0. split; [exact B|].
      destruct browser_ex as (_ & D & k' & Hk & _ & T). cbn in Hk. injection Hk as <-. exact T. }
  assert (Rn : forall M : option (list record) -> Prop, M None -> renders_all demo_env life_prog [1; 0] client_managers M (snd (life_at (life_first ++ life_then)))).
  { intros M MN. eapply (node_weaken (fun _ => True) _ (fun _ => True) _ (fun d => d = None) _ (fun d => d = None)); [intros b _; apply Ra|intros k _; exact Logic.I|intros d Q; exact Q|intros d ->; exact MN|].
    exact life_no_data. }
  destruct (living_never_panics shop_yew demo_env demo_page client_ops client_prog [1; 0] client_managers _ _ _ evs
    client_run client_managers_are F R Sr (Rn _ Logic.I) Fe) as [A B].
  { eapply Forall_impl; [|exact Ln]. intros ev [Q _]. revert Q. apply event_weaken; [intros b _; apply Ra|intros k _; exact Logic.I|intros d Q; exact Q]. }
  { intros path k _. apply Rn. reflexivity. }
  destruct (nrun shop_yew demo_env [1; 0] evs (snd (life_at (life_first ++ life_then))) life_prog) as [p2 n2| |] eqn:E.
  - exists p2, n2. split; [reflexivity|]. now apply B.
  - exfalso. destruct (A eq_refl) as (be & o & af & _ & _ & -> & _). rewrite Forall_forall in Io. specialize (Io (EDo o)). cbn in Io.
    discriminate Io. apply in_or_app. right. now left.
  - exfalso. clear -E. revert E. generalize (snd (life_at (life_first ++ life_then))) as n, life_prog as p. induction evs as [|ev evs IH]; intros n p; cbn [nrun]; [discriminate|].
    destruct (nstep _ _ _ ev n p); [apply IH|discriminate|apply IH].
Qed.
Example living_stable_ex : forall paths p2 n2,
  nrun shop_yew demo_env [1; 0] (map ERender paths) (snd (life_at life_first)) (fst (life_at life_first)) = NNext p2 n2 ->
  n2 = snd (life_at life_first) /\ w_draws (a_world (p_app p2)) = 3.
Proof.
  intros paths p2 n2 H. destruct life_runs as (R & _). destruct life_proper as (F & _).
  destruct (living_stable shop_yew demo_env demo_page client_ops client_prog [1; 0] client_managers _ _ _ paths p2 n2 client_run client_managers_are F R) as (A & B & _);
    [vm_compute; reflexivity|exact H|]. split; [exact A|]. rewrite B. vm_compute. reflexivity.
Qed.
Lemma life_hands : Forall (fun ev => is_other ev = false /\ hands_nothing ev) (life_first ++ life_end).
Proof. repeat constructor. Qed.
(** All is destroyed: what the program owns is the two managers it had, and the default one. *)
Example living_gives_back_ex : forall h mi, owns (a_world (p_app (fst (life_at (life_first ++ life_end))))) h mi -> h < 3.
Proof.
  intros h mi O. destruct life_runs as (_ & _ & _ & R). destruct life_proper as (_ & _ & _ & F).
  destruct (living_gives_back shop_yew demo_env demo_page client_ops client_prog [1; 0] client_managers _ _ _ h mi client_run client_managers_are F life_hands R) as [A _].
  destruct (A O) as [B|[[]|B]].
  - destruct h as [|[|h]]; [lia|lia|]. exfalso. vm_compute in B. destruct h; discriminate.
  - assert (E : a_default (p_app (fst (life_at (life_first ++ life_end)))) = Some 2) by (vm_compute; reflexivity). rewrite E in B. injection B as <-. lia.
Qed.
(** The application of [PropsTree], hydrated, then with a new component: it gets the class that
    came from the server. *)
Definition shown_result := lrun shop_yew demo_env false [1; 0] None client_schedule (begin (sent site_served)) client_prog.
Definition shown_prog : prog := match shown_result with LNext p _ => p | _ => client_prog end.
Definition shown_tree : live := match shown_result with LNext _ l => l | _ => LEnd end.
Definition shown_then : list event := [EMount [true] (VComp badge VEnd VEnd); ERender [true]; ERender [true; false; true]].
Lemma shown_proper : Forall (proper [1; 0]) shown_then.
Proof. repeat constructor; cbn; auto 10. Qed.
Example living_keeps_served_classes_ex : exists p3 n3 cls,
  nrun shop_yew demo_env [1; 0] shown_then (of_live shown_tree) shown_prog = NNext p3 n3
  /\ In (Some 0, badge, [[lit "app-style-1"]]) (served_components None site_served)
  /\ In (Some 0, true, badge, cls) (components None n3) /\ cls = [[lit "app-style-1"]].
Proof.
  assert (Q : exists p3 n3, nrun shop_yew demo_env [1; 0] shown_then (of_live shown_tree) shown_prog = NNext p3 n3
    /\ exists cls rest, components None n3 = (Some 0, true, badge, cls) :: rest).
  { eexists. eexists. split; [vm_compute; reflexivity|]. eexists. eexists. vm_compute. reflexivity. }
  destruct Q as (p3 & n3 & R & cls & rest & C).
  assert (I : In (Some 0, badge, [[lit "app-style-1"]]) (served_components None site_served)) by (vm_compute; auto).
  assert (I' : In (Some 0, true, badge, cls) (components None n3)) by (rewrite C; left; reflexivity).
  exists p3, n3, cls. split; [exact R|]. split; [exact I|]. split; [exact I'|].
  apply (living_keeps_served_classes shop_yew site_env [] site_ops site_prog [0; 1] (fun k => k) site site_schedule site_after site_served
    shop_yew demo_env demo_page client_ops client_prog [1; 0] client_managers client_schedule shown_prog shown_tree shown_then p3 n3 (Some 0) badge [[lit "app-style-1"]] badge cls
    site_run site_managers site_well_formed site_collects site_renders site_finished client_run client_managers_are eq_refl client_empty).
  - unfold client_managers. cbn [List.length]. intros k k' L L'. lia.
  - vm_compute. reflexivity.
  - vm_compute. reflexivity.
  - exact shown_proper.
  - exact R.
  - exact I.
  - exact I'.
  - reflexivity.
Qed.
