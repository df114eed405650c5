(** * PropsPage: from CSS text and macros to what the page says (C70-C73). *)

From Coq Require Import String Ascii List NArith Bool Arith Lia.
From Verif Require Import Str StrFacts Ast Render CssParser SheetCache Ids IdFacts Manager SpecManager
  ManagerFacts ManagerInv ManagerSteps ManagerCore ManagerProps Hydrate Hooks SpecHooks HookFacts HookOnly
  HookTame HookKeep PropsManager PropsHooks PropsCache SpecProgress PropsProgress Create SpecCreate CreateFacts PropsCreate
  SpecGrammar SpecReparse ParserComplete ReparseWritten PropsReparse PropsParser PropsRender Tok Output Owned LitMacro
  SpecOutput SpecMacro PropsMacro SpecInline Inline PropsInline SpecRender SpecPage.
Import ListNotations.
Local Open Scope list_scope.
Local Opaque parse to_style_str.

Lemma ascii_ident_ordinary c : (c < 128)%N -> ident_char c = true -> ordinary c.
Proof.
  intros L H. unfold ident_char, ident_start in H. rewrite !orb_true_iff in H.
  destruct H as [[[[H|H]|H]|H]|H].
  - apply alnum_ordinary. unfold is_ascii_alnum. now rewrite H.
  - apply N.eqb_eq in H. subst. split; [cbn; intuition discriminate|reflexivity].
  - apply N.leb_le in H. lia.
  - apply alnum_ordinary. unfold is_ascii_alnum. rewrite H. apply orb_true_r.
  - apply N.eqb_eq in H. subst. split; [cbn; intuition discriminate|reflexivity].
Qed.

Lemma plain_ident_chars p : plain_ident p = true -> forallb ident_char p = true.
Proof.
  destruct p as [|c p]; [discriminate|]. unfold plain_ident. destruct (char_eqb c (ch "-")) eqn:D.
  - destruct p as [|d p]; [discriminate|]. rewrite !andb_true_iff. cbn [forallb]. intros [H1 H2].
    apply N.eqb_eq in D. subst c. rewrite H2. unfold ident_char at 1. cbn [ident_char].
    rewrite !andb_true_iff. repeat split; auto. unfold ident_char.
    apply orb_true_iff in H1. destruct H1 as [H1|H1]; rewrite ?H1, ?orb_true_r; auto.
  - rewrite andb_true_iff. cbn [forallb]. intros [H1 H2]. rewrite H2. unfold ident_char at 1. now rewrite H1.
Qed.

Lemma prefix_ordinary p : plain_prefix p -> Forall ordinary p.
Proof.
  intros [H L]. apply plain_ident_chars in H. rewrite forallb_forall in H. rewrite Forall_forall in *.
  intros c I. apply ascii_ident_ordinary; auto.
Qed.
Lemma stylist_prefix : plain_prefix (lit "stylist").
Proof. split; [reflexivity|]. repeat constructor. Qed.

Lemma ident_boring c : ident_char c = true -> boring c = true.
Proof.
  unfold boring. intros H. destruct (mem c _) eqn:M; [|reflexivity]. exfalso.
  unfold mem in M. apply existsb_exists in M. destruct M as (d & I & E). apply N.eqb_eq in E. subst d.
  cbn in I. repeat (destruct I as [<-|I]; [discriminate H|]). exact I.
Qed.
Lemma id_boring g p d : plain_ident p = true -> forallb ident_char d = true -> forallb boring (new_id g p d) = true.
Proof.
  intros Hp Hd. pose proof (plain_prefix_plain_id g p d Hp Hd) as H. apply plain_ident_chars in H.
  rewrite forallb_forall in *. intros c I. apply ident_boring; auto.
Qed.

Lemma fresh_plain e page n : names_fresh e page n -> forall i, forallb ident_char (e_draw e i) = true.
Proof. intros [D _] i. destruct entropy_is_plain as [A B]. destruct (D i) as [->|R]; auto. Qed.
Lemma browser_default e page p : in_browser e page -> has_default e p.
Proof. intros (_ & D & k & H & _). right. right. split; auto. congruence. Qed.

(** ** C70: what is written is what the page says *)

Lemma made_text y e page l p loc c p1 r s s' :
  prun y e (prog_start page) l = Some p -> ploaded l = [] -> user_call (p_app p) c = true ->
  call_handle c = None -> css_sheet (call_css c) = Some s ->
  (forall class, to_style_str class s = to_style_str class s') ->
  closed_sheet s' -> (e_debug e = true -> good_sheet s') ->
  plain_call c -> in_browser e page -> names_fresh e page (w_draws (a_world (p_app p1))) ->
  perform e loc c p = (p1, r) ->
  exists x id, r = Created x /\ get_id (a_world (p_app p1)) x = Some id
    /\ boring_class (scope_of c id) /\ plain_ident id = true
    /\ texts_of id (w_dom (a_world (p_app p1))) = [to_style_str (scope_of c id) s'].
Proof.
  intros H Ld U Hc Cs Es Cl Gd Pc B F P. pose proof (fresh_plain _ _ _ F) as Pl.
  pose proof (browser_default e page p B) as Hd. destruct F as [Dr Ap]. destruct B as (W & Dc & k & Hk & Ic & Tk).
  pose proof (pgood_reached _ _ _ _ _ H) as Pg. pose proof Pg as (K & G & D).
  assert (N : call_handle c = None -> default_manager e (p_app p) <> None) by (intros _; apply (has_default_iff _ _ _ _ Pg); auto).
  pose proof (perform_documented e page _ loc c p p1 _ Pg U N P) as D1.
  assert (Mg : forall mi m, call_manager_is p p1 c mi -> nth_error (w_mgrs (a_world (p_app p1))) mi = Some m ->
             m_prefix m = lit "stylist" /\ m_data m = None /\ m_append m = true /\ m_container m = Some k).
  { intros mi m Mi Hm. unfold call_manager_is, context_is in Mi. rewrite Hc in Mi. destruct Mi as (dh & E1 & E2).
    destruct (D1 dh E1) as (mj & m' & F1 & F2 & F3 & F4 & F5 & F6). rewrite E2 in F1. injection F1 as <-. rewrite Hm in F2. injection F2 as <-.
    rewrite W, Hk in F6. auto. }
  assert (Px : forall m s0, m_prefix m = lit "stylist" -> plain_prefix (k_prefix (wanted c m s0))).
  { intros m s0 Em. destruct c; try discriminate; cbn [wanted k_prefix plain_call] in *; rewrite ?Em; auto using stylist_prefix. }
  assert (R : exists x, r = Created x).
  { apply (call_succeeds y e page l p loc c p1 r s H U (fun _ => Hd) Cs P). intros mi m Mi Hm.
    destruct (Mg mi m Mi Hm) as (M1 & M2 & M3 & M4). split.
    - right. right. split; auto. split; auto. exists k. auto.
    - intros Db n. pose proof (debug_check_passes e (mk_key (k_global (wanted c m s)) (k_prefix (wanted c m s)) s')) as Q.
      destruct (Q (Gd Db) (fun _ => prefix_ordinary _ (Px m s M1)) Dr Db n) as (s2 & Q2). exists s2. rewrite <- Q2. f_equal.
      unfold style_text. cbn [k_global k_prefix k_ast].
      assert (A : k_ast (wanted c m s) = s) by now destruct c. now rewrite A, Es. }
  destruct R as [x ->].
  assert (Pp : forall prefix cs, c = SCreate prefix cs -> plain_ident prefix = true).
  { intros prefix cs ->. apply Pc. }
  destruct (created_is_in_the_head y e page l p loc c p1 x k H Ld U P Hc Pp W Dc Hk Ic Ap Pl) as (s0 & id & R1 & R2 & R3).
  rewrite Cs in R1. injection R1 as <-. exists x, id. split; auto. split; auto.
  destruct (created_as_asked y e page l p loc c p1 x H U P) as (s1 & mi & m & cid & d & C1 & C2 & C3 & C4 & C5 & C6 & C7 & C8 & C9 & _ & C11).
  assert (Hx : handle_of (w_handles (a_world (p_app p1))) x = Some cid) by (rewrite C5, C6; unfold handle_of; now rewrite nth_app_new).
  assert (Pi : plain_ident id = true).
  { unfold get_id, handle_content in R2. rewrite Hx, C7 in R2. injection R2 as <-.
    rewrite Ld in Pg. destruct Pg as (K' & G' & _).
    destruct (perform_spec e page _ loc c p p1 _ K' G' U N P) as (_ & _ & G1 & _).
    pose proof (o_origin _ _ _ _ (good_core _ _ _ _ _ _ G1) _ _ C7) as Or.
    destruct (c_hydrated d) eqn:Hy; [contradiction|]. destruct Or as (n & _ & ->). unfold made_id.
    apply plain_prefix_plain_id; auto. rewrite C8. apply Px. auto. }
  assert (Bo : forallb boring id = true).
  { pose proof (plain_ident_chars _ Pi) as Ch. rewrite forallb_forall in *. intros z Iz. apply ident_boring; auto. }
  assert (Sc : scope_of c id = match c with GNew _ => None | _ => Some id end) by (destruct c; auto; discriminate).
  rewrite <- Sc in R3. rewrite Es in R3. split; [|split; [exact Pi|exact R3]].
  unfold scope_of. destruct c; exact I || exact Bo.
Qed.

Lemma made_says y e page l p loc c p1 r s s' :
  prun y e (prog_start page) l = Some p -> ploaded l = [] -> user_call (p_app p) c = true ->
  call_handle c = None -> css_sheet (call_css c) = Some s ->
  (forall class, to_style_str class s = to_style_str class s') ->
  closed_sheet s' -> (e_debug e = true -> good_sheet s') ->
  plain_call c -> in_browser e page -> names_fresh e page (w_draws (a_world (p_app p1))) ->
  perform e loc c p = (p1, r) ->
  exists x id, r = Created x /\ get_id (a_world (p_app p1)) x = Some id
    /\ page_says (a_world (p_app p1)) id (sheet_decls (scope_of c id) s').
Proof.
  intros H Ld U Hc Cs Es Cl Gd Pc B F P.
  destruct (made_text y e page l p loc c p1 r s s' H Ld U Hc Cs Es Cl Gd Pc B F P) as (x & id & -> & Gi & Bo & _ & R3).
  exists x, id. split; auto. split; auto.
  destruct (rendered_css_reads_back (scope_of c id) s') as (items & I1 & I2); auto.
  exists (to_style_str (scope_of c id) s'), items. auto.
Qed.

(** CSS that is written in the documented syntax and given to [Style::new], [Style::create] or
    [GlobalStyle::new] in a browser: a style is returned, and the page has a style element for its
    class that says what is written, scoped to the class.  In debug builds, which parse the
    generated CSS again, keyframes must not be empty (C13). *)
Theorem text_takes_effect : forall y e page l p loc c p1 r t s,
  prun y e (prog_start page) l = Some p -> ploaded l = [] -> user_call (p_app p) c = true ->
  call_handle c = None -> call_css c = CText t ->
  writes_sheet t s -> closed_sheet s ->
  (e_debug e = true -> dollar_free t /\ keyframes_say_something s) ->
  plain_call c -> in_browser e page -> names_fresh e page (w_draws (a_world (p_app p1))) ->
  perform e loc c p = (p1, r) ->
  exists x id, r = Created x /\ get_id (a_world (p_app p1)) x = Some id
    /\ page_says (a_world (p_app p1)) id (sheet_decls (scope_of c id) s).
Proof.
  intros y e page l p loc c p1 r t s H Ld U Hc Ct Wr Cl Db Pc B F P.
  apply (made_says y e page l p loc c p1 r s s); auto.
  - rewrite Ct. cbn [css_sheet]. now rewrite (parse_complete _ _ Wr).
  - intros X. destruct (Db X). eapply written_sheet_good; eauto.
Qed.
Print Assumptions text_takes_effect.

Lemma Forall2_at {A B} (R : A -> B -> Prop) l l' i x y :
  Forall2 R l l' -> nth_error l i = Some x -> nth_error l' i = Some y -> R x y.
Proof.
  intros H. revert i. induction H as [|a b l l' Hab _ IH]; intros [|i] Hx Hy; cbn in *; try discriminate.
  - congruence.
  - eauto.
Qed.

(** The same for a string literal in a macro, each time its code is run: the page says what the
    literal says with the values that the arguments have at that time. *)
Theorem literal_takes_effect : forall lit_value first rest css sh args g envs vs i rho v sh'
    y e page l p loc c p1 r,
  lit_value first = Some css -> parse css = Parsed sh -> after_literal rest args ->
  lit_macro lit_value (first :: rest) = Expands g ->
  evaluate_all None envs g = Some vs -> nth_error envs i = Some rho -> nth_error vs i = Some v ->
  sheet_fills (argument args rho) sh sh' -> closed_sheet sh' -> (e_debug e = true -> good_sheet sh') ->
  prun y e (prog_start page) l = Some p -> ploaded l = [] -> user_call (p_app p) c = true ->
  call_handle c = None -> call_css c = CSheet (erase_sheet v) ->
  plain_call c -> in_browser e page -> names_fresh e page (w_draws (a_world (p_app p1))) ->
  perform e loc c p = (p1, r) ->
  exists x id, r = Created x /\ get_id (a_world (p_app p1)) x = Some id
    /\ page_says (a_world (p_app p1)) id (sheet_decls (scope_of c id) sh').
Proof.
  intros lv first rest css sh args g envs vs i rho v sh' y e page l p loc c p1 r Hl Hp Ha E V Hr Hv Fl Cl Gd H Ld U Hc Ct Pc B F P.
  destruct (literal_macro_substitutes lv first rest css sh args g Hl Hp Ha E envs) as (vs' & V' & Al).
  rewrite V in V'. injection V' as <-. destruct (Forall2_at _ _ _ _ _ _ Al Hr Hv) as (sh2 & _ & Un & Tx).
  rewrite <- (Un sh' Fl) in Tx. apply (made_says y e page l p loc c p1 r (erase_sheet v) sh'); auto. now rewrite Ct.
Qed.
Print Assumptions literal_takes_effect.

(** ... and for CSS written inline. *)
Theorem inline_takes_effect : forall expr_of input items g envs vs i rho v s y e page l p loc c p1 r,
  reads_sheet expr_of input items -> inline_macro expr_of input = IExpands g ->
  evaluate_all None envs g = Some vs -> nth_error envs i = Some rho -> nth_error vs i = Some v ->
  sheet_says rho items s -> closed_sheet s -> (e_debug e = true -> good_sheet s) ->
  prun y e (prog_start page) l = Some p -> ploaded l = [] -> user_call (p_app p) c = true ->
  call_handle c = None -> call_css c = CSheet (erase_sheet v) ->
  plain_call c -> in_browser e page -> names_fresh e page (w_draws (a_world (p_app p1))) ->
  perform e loc c p = (p1, r) ->
  exists x id, r = Created x /\ get_id (a_world (p_app p1)) x = Some id
    /\ page_says (a_world (p_app p1)) id (sheet_decls (scope_of c id) s).
Proof.
  intros ex input items g envs vs i rho v s y e page l p loc c p1 r Rd E V Hr Hv Sy Cl Gd H Ld U Hc Ct Pc B F P.
  destruct (inline_macro_sheet ex input items Rd) as (g' & E' & Q). rewrite E in E'. injection E' as <-.
  destruct (Q envs) as (vs' & V' & Al). rewrite V in V'. injection V' as <-.
  destruct (Forall2_at _ _ _ _ _ _ Al Hr Hv) as (s2 & S2 & _ & Tx).
  assert (s2 = s) by (eapply inline_sheet_unique; eauto). subst s2.
  apply (made_says y e page l p loc c p1 r (erase_sheet v) s); auto. now rewrite Ct.
Qed.
Print Assumptions inline_takes_effect.

(** ** C71: class names stay valid *)

Lemma ploaded_app l l' : ploaded (l ++ l') = ploaded l ++ ploaded l'.
Proof. unfold ploaded. apply flat_map_app. Qed.
Lemma prun_app y e : forall l q p l' p', prun y e q l = Some p -> prun y e p l' = Some p' -> prun y e q (l ++ l') = Some p'.
Proof.
  induction l as [|o l IH]; intros q p l' p' H H'; cbn [prun List.app] in *.
  - now injection H as ->.
  - destruct (pstep y e q o); [eauto|discriminate].
Qed.
Lemma prun_call y e l q p loc c p1 x :
  prun y e q l = Some p -> user_call (p_app p) c = true -> perform e loc c p = (p1, Created x) ->
  prun y e q (l ++ [PCall loc c]) = Some p1.
Proof. intros H U P. eapply prun_app; eauto. cbn [prun pstep]. now rewrite U, P. Qed.

(** A scoped style of a manager that mounts into the document: as long as the manager lives, and
    nothing is unregistered by hand, its element is there, exactly once, with the text the style
    had when it was created, whether or not handles on the style are left. *)
Theorem class_valid_while_manager_lives : forall y e page l p loc c p1 x id mi m k l' p2,
  prun y e (prog_start page) l = Some p -> ploaded l = [] -> user_call (p_app p) c = true ->
  perform e loc c p = (p1, Created x) -> get_id (a_world (p_app p1)) x = Some id ->
  call_manager_is p p1 c mi -> nth_error (w_mgrs (a_world (p_app p1))) mi = Some m ->
  m_data m = None -> m_container m = Some k -> in_document page k ->
  (forall s, plain_ident (k_prefix (wanted c m s)) = true) -> scope_of c id = Some id ->
  e_wasm e = true -> e_document e = true ->
  prun y e p1 l' = Some p2 -> existsb punregisters l' = false -> mlive (a_world (p_app p2)) mi ->
  names_fresh e page (w_draws (a_world (p_app p2))) ->
  (forall i, In i (ploaded l') -> not_drawn (e_draw e) (w_draws (a_world (p_app p2))) i) ->
  exists text, get_style_str (a_world (p_app p1)) x = Some text
    /\ texts_of id (w_dom (a_world (p_app p2))) = [text].
Proof.
  intros y e page l p loc c p1 x id mi m k l' p2 H Ld U P Gi Mi Hm Md Mc Ic Pp Sc W Dc H2 NU Lv F Nl.
  destruct (created_as_asked y e page l p loc c p1 x H U P) as (s & mi0 & m0 & cid & d & C1 & C2 & C3 & _ & C5 & C6 & C7 & C8 & C9 & C10 & C11).
  assert (Em : mi = mi0).
  { unfold call_manager_is, context_is in *. destruct (call_handle c); [congruence|]. destruct Mi as (d1 & A1 & A2), C2 as (d2 & B1 & B2). congruence. }
  subst mi. rename mi0 into mi. rewrite Hm in C3. injection C3 as <-.
  assert (Kg : k_global (wanted c m s) = false) by (destruct c; auto; discriminate).
  pose proof (prun_call _ _ _ _ _ _ _ _ _ H U P) as H1. pose proof (prun_app _ _ _ _ _ _ _ H1 H2) as H12.
  pose proof (pgood_reached _ _ _ _ _ H1) as G1. pose proof (pgood_reached _ _ _ _ _ H12) as G2.
  destruct (steps_prun y e page l' _ p1 p2 G1 H2 NU) as [S _].
  pose proof G1 as (_ & G1a & _). pose proof (good_cored _ _ _ _ _ _ G1a) as Co1.
  assert (Lv1 : mlive (a_world (p_app p1)) mi).
  { apply (mlive_steps e (a_world (p_app p1)) (a_world (p_app p2))); auto. apply nth_error_Some. congruence. }
  assert (R2 : registered (a_world (p_app p2)) mi (wanted c m s) cid).
  { destruct (keep_steps e _ _ mi _ cid S Co1 Kg (C10 Lv1)) as [X|[_ X]]; auto. destruct Lv as [j Hj]. now elim (X j). }
  destruct (steps_contents e _ _ cid d S C7) as (d2 & Hd2 & B). apply base_fields in B. destruct B as (B1 & B2 & B3 & B4 & B5).
  destruct (steps_like e _ _ mi m S Hm) as (m2 & Hm2 & L). 
  assert (Hx : handle_of (w_handles (a_world (p_app p1))) x = Some cid) by (rewrite C5, C6; unfold handle_of; now rewrite nth_app_new).
  unfold get_id, get_style_str, handle_content in *. rewrite Hx, C7 in Gi. rewrite Hx, C7. cbn in *. injection Gi as <-.
  exists (c_text d). split; auto.
  assert (L1 : ploaded (l ++ [PCall loc c]) = []) by (rewrite ploaded_app, Ld; reflexivity).
  assert (L2 : ploaded ((l ++ [PCall loc c]) ++ l') = ploaded l') by now rewrite ploaded_app, L1.
  assert (Hy : c_hydrated d = false).
  { pose proof (o_origin _ _ _ _ (good_core _ _ _ _ _ _ G1a) _ _ C7) as Or. rewrite L1 in Or. now destruct (c_hydrated d). }
  destruct (C11 Hy) as (_ & n & _ & Id).
  pose proof G2 as (_ & G2a & _). destruct (gd_reach _ _ _ _ _ _ G2a) as (l0 & Re & El). rewrite L2 in El.
  pose proof (fresh_plain _ _ _ F) as Pl. destruct F as [_ [A1 A2]].
  rewrite <- B1, <- B3. destruct L as (_ & L4 & L5).
  apply (in_document_exactly_while_alive e page l0 (a_world (p_app p2)) cid d2 k); auto.
  - split; [exact A1|]. split; [exact A2|]. rewrite El. exact Nl.
  - split; [congruence|]. exists m2. rewrite B4, C9. split; auto. split; [auto|congruence].
  - rewrite B1, Id. apply plain_prefix_plain_id; auto.
  - right. eauto.
Qed.
Print Assumptions class_valid_while_manager_lives.

(** A class name of [Style::new], [Style::create], [style!] is valid for good: the default manager
    is never dropped. *)
Theorem class_stays_valid : forall y e page l p loc c p1 x id l' p2,
  prun y e (prog_start page) l = Some p -> ploaded l = [] -> user_call (p_app p) c = true ->
  call_handle c = None -> scope_of c id = Some id -> plain_call c -> in_browser e page ->
  perform e loc c p = (p1, Created x) -> get_id (a_world (p_app p1)) x = Some id ->
  prun y e p1 l' = Some p2 -> existsb punregisters l' = false ->
  names_fresh e page (w_draws (a_world (p_app p2))) ->
  (forall i, In i (ploaded l') -> not_drawn (e_draw e) (w_draws (a_world (p_app p2))) i) ->
  exists text, get_style_str (a_world (p_app p1)) x = Some text
    /\ texts_of id (w_dom (a_world (p_app p2))) = [text].
Proof.
  intros y e page l p loc c p1 x id l' p2 H Ld U Hc Sc Pc (W & Dc & k & Hk & Ic & Tk) P Gi H2 NU F Nl.
  pose proof (prun_call _ _ _ _ _ _ _ _ _ H U P) as H1. pose proof (prun_app _ _ _ _ _ _ _ H1 H2) as H12.
  destruct (created_as_asked y e page l p loc c p1 x H U P) as (s & mi & m & cid & d & C1 & C2 & C3 & _).
  pose proof (pgood_reached _ _ _ _ _ H1) as G1. pose proof (pgood_reached _ _ _ _ _ H12) as G2.
  destruct (steps_prun y e page l' _ p1 p2 G1 H2 NU) as [S Sd].
  pose proof C2 as Mi. unfold call_manager_is, context_is in Mi. rewrite Hc in Mi. destruct Mi as (dh & E1 & E2).
  destruct G1 as (_ & _ & D1). destruct (D1 dh E1) as (mj & m' & F1 & F2 & F3 & F4 & F5 & F6).
  rewrite E2 in F1. injection F1 as <-. rewrite C3 in F2. injection F2 as <-. rewrite W, Hk in F6.
  apply (class_valid_while_manager_lives y e page l p loc c p1 x id mi m k l' p2); auto.
  - intros s0. destruct c; try discriminate; cbn [wanted k_prefix]; try (rewrite F3; reflexivity). apply Pc.
  - destruct G2 as (_ & _ & D2). destruct (D2 dh (Sd dh E1)) as (mk' & m2 & J1 & _).
    exists dh. rewrite J1. f_equal.
    assert (Pa : passes (w_mhandles (a_world (p_app p1))) (w_mhandles (a_world (p_app p2)))) by (eapply passes_steps; eauto).
    unfold handle_of in E2, J1. destruct (nth_error (w_mhandles (a_world (p_app p1))) dh) as [o|] eqn:N1; [|discriminate].
    destruct (proj2 Pa dh) as [X|X]; [apply nth_error_Some; congruence| |]; rewrite X in J1.
    + rewrite N1 in J1. congruence.
    + discriminate.
Qed.
Print Assumptions class_stays_valid.

(** ** C72: one class, one CSS *)

Lemma contents_pstep y e page ids p o p1 cid d :
  pgood e page ids p -> pstep y e p o = Some p1 -> nth_error (w_contents (a_world (p_app p))) cid = Some d ->
  exists d1, nth_error (w_contents (a_world (p_app p1))) cid = Some d1 /\ base d1 = base d.
Proof.
  intros G S H. destruct (punregisters o) eqn:U.
  - destruct o as [o| |]; try discriminate. cbn [pstep] in S. destruct (astep y e (p_app p) o) as [a|] eqn:A; [|discriminate]. injection S as <-.
    cbn [p_app]. destruct o as [o| | | | |]; try discriminate. cbn [astep] in A. destruct (free _ _ && free _ _); [|discriminate].
    pose proof (step_contents e (a_world (p_app p)) o cid d H) as K.
    destruct (Manager.step e _ o) as [w [ | | | | | ]]; try discriminate; now injection A as <-.
  - destruct (steps_pstep _ _ _ _ _ _ _ G S U) as [St _]. eapply steps_contents; eauto.
Qed.
Lemma contents_prun y e page l : forall ids p p1 cid d,
  pgood e page ids p -> prun y e p l = Some p1 -> nth_error (w_contents (a_world (p_app p))) cid = Some d ->
  exists d1, nth_error (w_contents (a_world (p_app p1))) cid = Some d1 /\ base d1 = base d.
Proof.
  induction l as [|o l IH]; intros ids p p1 cid d G R H; cbn [prun] in R.
  - injection R as <-. eauto.
  - destruct (pstep y e p o) as [p2|] eqn:S; [|discriminate].
    destruct (contents_pstep _ _ _ _ _ _ _ _ _ G S H) as (d2 & H2 & B2).
    destruct (IH _ p2 p1 cid d2 (pgood_pstep _ _ _ _ _ _ _ G S) R H2) as (d3 & H3 & B3). exists d3. split; auto. congruence.
Qed.

(** Two constructors, at any two times: if the second style has the class name (or id) of the
    first, both have the same CSS, prefix and kind, and the same manager. *)
Theorem same_class_same_css : forall y e page l p loc c p1 x l' p2 loc' c' p3 x' id,
  prun y e (prog_start page) l = Some p -> user_call (p_app p) c = true ->
  perform e loc c p = (p1, Created x) -> get_id (a_world (p_app p1)) x = Some id ->
  prun y e p1 l' = Some p2 -> user_call (p_app p2) c' = true ->
  perform e loc' c' p2 = (p3, Created x') -> get_id (a_world (p_app p3)) x' = Some id ->
  ploaded l = [] -> ploaded l' = [] -> ids_apart e page (w_draws (a_world (p_app p3))) ->
  exists s mi m m',
    css_sheet (call_css c) = Some s /\ css_sheet (call_css c') = Some s
    /\ call_manager_is p p1 c mi /\ call_manager_is p2 p3 c' mi
    /\ nth_error (w_mgrs (a_world (p_app p1))) mi = Some m
    /\ nth_error (w_mgrs (a_world (p_app p3))) mi = Some m'
    /\ wanted c m s = wanted c' m' s.
Proof.
  intros y e page l p loc c p1 x l' p2 loc' c' p3 x' id H U P Gi H2 U2 P3 Gi' Ld Ld' Ap.
  destruct (created_as_asked y e page l p loc c p1 x H U P) as (s & mi & m & cid & d & C1 & C2 & C3 & _ & C5 & C6 & C7 & C8 & C9 & _).
  pose proof (prun_call _ _ _ _ _ _ _ _ _ H U P) as H1. pose proof (prun_app _ _ _ _ _ _ _ H1 H2) as H12.
  destruct (created_as_asked y e page _ p2 loc' c' p3 x' H12 U2 P3) as (s' & mi' & m' & cid' & d' & D1 & D2 & D3 & _ & D5 & D6 & D7 & D8 & D9 & _).
  pose proof (prun_call _ _ _ _ _ _ _ _ _ H12 U2 P3) as H3.
  pose proof (pgood_reached _ _ _ _ _ H1) as G1. pose proof (pgood_reached _ _ _ _ _ H3) as G3.
  assert (R3 : prun y e p1 (l' ++ [PCall loc' c']) = Some p3) by (eapply prun_call; eauto).
  destruct (contents_prun _ _ _ _ _ _ _ _ _ G1 R3 C7) as (d3 & Hd3 & B). apply base_fields in B. destruct B as (B1 & B2 & B3 & B4 & B5).
  assert (Hx : handle_of (w_handles (a_world (p_app p1))) x = Some cid) by (rewrite C5, C6; unfold handle_of; now rewrite nth_app_new).
  assert (Hx' : handle_of (w_handles (a_world (p_app p3))) x' = Some cid') by (rewrite D5, D6; unfold handle_of; now rewrite nth_app_new).
  unfold get_id, handle_content in Gi, Gi'. rewrite Hx, C7 in Gi. rewrite Hx', D7 in Gi'. cbn in Gi, Gi'.
  injection Gi as Gi. injection Gi' as Gi'.
  assert (Lds : ploaded (((l ++ [PCall loc c]) ++ l') ++ [PCall loc' c']) = []).
  { rewrite !ploaded_app, Ld, Ld'. reflexivity. }
  rewrite Lds in G3. pose proof G3 as (_ & G3a & _). destruct (gd_reach _ _ _ _ _ _ G3a) as (l0 & Re & El).
  pose proof (reaches_inv _ _ _ _ Re (ids_no_clash _ _ _ _ El Ap)) as I.
  pose proof (o_origin _ _ _ _ (good_core _ _ _ _ _ _ G3a) _ _ Hd3) as Or.
  assert (Hy : c_hydrated d3 = false) by (destruct (c_hydrated d3); [contradiction|reflexivity]).
  assert (Ec : cid = cid').
  { destruct (Nat.eq_dec cid cid') as [|N]; auto. exfalso. destruct (i_ids _ _ _ _ _ I) as [_ Un].
    apply (Un cid cid' d3 d' Hd3 D7 N Hy). congruence. }
  subst cid'. rewrite Hd3 in D7. injection D7 as ->.
  assert (Ek : wanted c m s = wanted c' m' s') by congruence.
  assert (Es : s = s').
  { assert (A : k_ast (wanted c m s) = s) by now destruct c. assert (A' : k_ast (wanted c' m' s') = s') by now destruct c'. congruence. }
  assert (Em : mi = mi') by congruence. rewrite <- Es, <- Em in *. exists s, mi, m, m'. repeat (split; [assumption|]). assumption.
Qed.
Print Assumptions same_class_same_css.

(** ** C73: the same values, the same class *)

Lemma all_some_ext {A B} (f f' : A -> option B) l :
  (forall x, In x l -> f x = f' x) -> all_some f l = all_some f' l.
Proof.
  induction l as [|x l IH]; intros H; [reflexivity|]. cbn. rewrite (H x) by now left.
  fold (all_some f l) (all_some f' l). rewrite IH; auto. intros z I. apply H. now right.
Qed.
Section Ext.
  Variables rho rho' : Output.env.
  Hypothesis Ext : forall c, rho c = rho' c.
  Lemma ev_str_ext g : ev_str (InFunction rho) g = ev_str (InFunction rho') g.
  Proof. destruct g; cbn; [reflexivity|]. now rewrite Ext. Qed.
  Lemma ev_vec_ext {A B} (f : place -> A -> option B) (g : gvec A) :
    (forall x, (match g with GItems l | GVec l => In x l end) -> f (InFunction rho) x = f (InFunction rho') x) ->
    ev_vec f (InFunction rho) g = ev_vec f (InFunction rho') g.
  Proof. destruct g; cbn; intros H; [reflexivity|]. f_equal. now apply all_some_ext. Qed.
  Lemma ev_frags_ext g : ev_frags (InFunction rho) g = ev_frags (InFunction rho') g.
  Proof. apply ev_vec_ext. intros x _. unfold ev_frag. now rewrite ev_str_ext. Qed.
  Lemma ev_selectors_ext g : ev_vec ev_selector (InFunction rho) g = ev_vec ev_selector (InFunction rho') g.
  Proof. apply ev_vec_ext. intros x _. unfold ev_selector. now rewrite ev_frags_ext. Qed.
  Lemma ev_rbc_ext : forall g, ev_rbc (InFunction rho) g = ev_rbc (InFunction rho') g.
  Proof.
    fix IH 1. intros g.
    assert (K : forall l, ev_vec ev_rbc (InFunction rho) (GVec l) = ev_vec ev_rbc (InFunction rho') (GVec l) ->
                  ev_vec ev_rbc (InFunction rho) (GVec l) = ev_vec ev_rbc (InFunction rho') (GVec l)) by auto.
    destruct g as [k v|r|b].
    - cbn [ev_rbc]. now rewrite ev_str_ext, ev_frags_ext.
    - cbn [ev_rbc]. destruct r as [r|[c [l|l]]]; [reflexivity| |]; cbn [ev_bow ev_rule_with]; rewrite ev_frags_ext; [reflexivity|].
      replace (ev_vec ev_rbc (InFunction rho) (GVec l)) with (ev_vec ev_rbc (InFunction rho') (GVec l)); [reflexivity|].
      cbn [ev_vec]. f_equal. clear -IH. induction l as [|x l IHl]; [reflexivity|]. cbn.
      rewrite <- (IH x). fold (all_some (ev_rbc (InFunction rho)) l) (all_some (ev_rbc (InFunction rho')) l). now rewrite IHl.
    - cbn [ev_rbc]. destruct b as [b|[c [l|l]]]; [reflexivity| |]; cbn [ev_bow ev_block_with]; rewrite ev_selectors_ext; [reflexivity|].
      replace (ev_vec ev_rbc (InFunction rho) (GVec l)) with (ev_vec ev_rbc (InFunction rho') (GVec l)); [reflexivity|].
      cbn [ev_vec]. f_equal. clear -IH. induction l as [|x l IHl]; [reflexivity|]. cbn.
      rewrite <- (IH x). fold (all_some (ev_rbc (InFunction rho)) l) (all_some (ev_rbc (InFunction rho')) l). now rewrite IHl.
  Qed.
  Lemma ev_contents_ext g : ev_contents (InFunction rho) g = ev_contents (InFunction rho') g.
  Proof.
    apply ev_vec_ext. intros x _. destruct x as [[c l]|[c l]]; cbn [ev_scope ev_rule_with ev_block_with].
    - rewrite ev_frags_ext, (ev_vec_ext ev_rbc l); auto using ev_rbc_ext.
    - rewrite ev_selectors_ext, (ev_vec_ext ev_rbc l); auto using ev_rbc_ext.
  Qed.
End Ext.

Lemma evaluated_now c : forall envs cell vs i rho v,
  evaluate_all cell envs (GNow c) = Some vs -> nth_error envs i = Some rho -> nth_error vs i = Some v ->
  ev_contents (InFunction rho) c = Some v.
Proof.
  induction envs as [|r envs IH]; intros cell vs i rho v H Hr Hv; [destruct i; discriminate|].
  cbn [evaluate_all evaluate] in H. destruct (ev_contents (InFunction r) c) as [u|] eqn:E; [|discriminate]. cbn [option_map] in H.
  destruct (evaluate_all cell envs (GNow c)) as [us|] eqn:Eu; [|discriminate]. injection H as <-.
  destruct i as [|i]; cbn in *; [congruence|eauto].
Qed.
Lemma evaluated_lazy c : forall envs cell vs i v,
  (forall u, cell = Some u -> ev_contents InStatic c = Some u) ->
  evaluate_all cell envs (GLazy c) = Some vs -> nth_error vs i = Some v -> ev_contents InStatic c = Some v.
Proof.
  induction envs as [|r envs IH]; intros cell vs i v K H Hv; cbn [evaluate_all] in H.
  - injection H as <-. now destruct i.
  - cbn [evaluate] in H. destruct cell as [u|].
    + destruct (evaluate_all (Some u) envs (GLazy c)) as [us|] eqn:Eu; [|discriminate]. injection H as <-.
      destruct i as [|i]; cbn in Hv; [|eauto]. injection Hv as <-. auto.
    + destruct (ev_contents InStatic c) as [u|] eqn:E; [|discriminate]. cbn [option_map] in H.
      destruct (evaluate_all (Some u) envs (GLazy c)) as [us|] eqn:Eu; [|discriminate]. injection H as <-.
      destruct i as [|i]; cbn in Hv; [congruence|]. eapply (IH (Some u)); eauto.
Qed.

(** The code of a macro call, run twice with expressions that display the same, gives the same
    sheet. *)
Theorem same_values_same_sheet : forall g envs vs i j rho rho' v v',
  evaluate_all None envs g = Some vs ->
  nth_error envs i = Some rho -> nth_error envs j = Some rho' -> (forall c, rho c = rho' c) ->
  nth_error vs i = Some v -> nth_error vs j = Some v' -> v = v'.
Proof.
  intros g envs vs i j rho rho' v v' H Hi Hj E Vi Vj. destruct g as [c|c].
  - assert (K : forall u, @None osheet = Some u -> ev_contents InStatic c = Some u) by discriminate.
    pose proof (evaluated_lazy c envs None vs i v K H Vi). pose proof (evaluated_lazy c envs None vs j v' K H Vj). congruence.
  - pose proof (evaluated_now c envs None vs i rho v H Hi Vi) as A. pose proof (evaluated_now c envs None vs j rho' v' H Hj Vj) as B.
    rewrite (ev_contents_ext rho rho' E) in A. congruence.
Qed.
Print Assumptions same_values_same_sheet.

(** So [style!] gives the same class each time it is run with the same values (in a component
    that is rendered again and again, say), whatever happens in between, unless the style is
    unregistered by hand; no class name is used up and no element is added. *)
Theorem same_values_same_class : forall g envs vs i j rho rho' v v'
    y e page l p loc p1 x l' p2 loc' p3 r id,
  evaluate_all None envs g = Some vs ->
  nth_error envs i = Some rho -> nth_error envs j = Some rho' -> (forall c, rho c = rho' c) ->
  nth_error vs i = Some v -> nth_error vs j = Some v' ->
  prun y e (prog_start page) l = Some p ->
  perform e loc (SNew (CSheet (erase_sheet v))) p = (p1, Created x) -> get_id (a_world (p_app p1)) x = Some id ->
  prun y e p1 l' = Some p2 -> existsb punregisters l' = false ->
  perform e loc' (SNew (CSheet (erase_sheet v'))) p2 = (p3, r) ->
  exists x', r = Created x' /\ get_id (a_world (p_app p3)) x' = Some id
    /\ w_draws (a_world (p_app p3)) = w_draws (a_world (p_app p2))
    /\ w_dom (a_world (p_app p3)) = w_dom (a_world (p_app p2)).
Proof.
  intros g envs vs i j rho rho' v v' y e page l p loc p1 x l' p2 loc' p3 r id H Hi Hj Ex Vi Vj R P Gi R2 NU P3.
  rewrite <- (same_values_same_sheet g envs vs i j rho rho' v v' H Hi Hj Ex Vi Vj) in P3. clear v' Vj.
  set (c := SNew (CSheet (erase_sheet v))) in *.
  assert (U : forall q, user_call (p_app q) c = true) by reflexivity.
  destruct (created_as_asked y e page l p loc c p1 x R (U p) P) as (s & mi & m & cid & d & C1 & C2 & C3 & C4 & _).
  pose proof (prun_call _ _ _ _ _ _ _ _ _ R (U p) P) as H1. pose proof (prun_app _ _ _ _ _ _ _ H1 R2) as H12.
  pose proof (pgood_reached _ _ _ _ _ H1) as G1. pose proof (pgood_reached _ _ _ _ _ H12) as G2.
  destruct (steps_prun y e page l' _ p1 p2 G1 R2 NU) as [S Sd].
  pose proof C2 as Mi. unfold call_manager_is, context_is in Mi. cbn [c call_handle] in Mi. destruct Mi as (dh & E1 & E2).
  pose proof (Sd dh E1) as E3.
  assert (Hd : has_default e p2) by (left; congruence).
  assert (N2 : call_handle c = None -> default_manager e (p_app p2) <> None) by (intros _; apply (has_default_iff _ _ _ _ G2); auto).
  pose proof G2 as (K2 & G2a & D2).
  destruct (perform_spec e page _ loc' c p2 p3 r K2 G2a (U p2) N2 P3) as (K3 & Eg & G3 & Dd & De & _ & Ke & mi3 & m3 & Mi3 & Hm3 & S3 & Sv).
  pose proof (steps_trans _ _ _ _ S S3) as S13.
  assert (Hold : forall w dh0 mj mk0, steps e (a_world (p_app p1)) w -> handle_of (w_mhandles (a_world (p_app p1))) dh0 = Some mj ->
     handle_of (w_mhandles w) dh0 = Some mk0 -> mk0 = mj).
  { intros w dh0 mj mk0 S0 N1 N2'. assert (Pa : passes (w_mhandles (a_world (p_app p1))) (w_mhandles w)) by (eapply passes_steps; eauto).
    unfold handle_of in N1, N2'. destruct (nth_error (w_mhandles (a_world (p_app p1))) dh0) as [o|] eqn:Nn; [|discriminate].
    destruct (proj2 Pa dh0) as [X|X]; [apply nth_error_Some; congruence| |]; rewrite X in N2'; [rewrite Nn in N2'|]; congruence. }
  assert (Em : mi3 = mi).
  { pose proof Mi3 as M3. unfold call_manager_is, context_is in M3. cbn [c call_handle] in M3. destruct M3 as (d3 & F1 & F2).
    rewrite (Dd dh E3) in F1. injection F1 as <-. exact (Hold _ dh mi mi3 S13 E2 F2). }
  subst mi3.
  assert (Lv : mlive (a_world (p_app p2)) mi).
  { destruct (D2 dh E3) as (mj & _ & J & _). exists dh. rewrite J. f_equal. exact (Hold _ dh mi mj S E2 J). }
  assert (Ew : wanted c m s = wanted c m3 s).
  { destruct (steps_like e _ _ mi m S13 C3) as (m3' & Hm3' & Lk). rewrite Hm3 in Hm3'. injection Hm3' as <-.
    destruct G1 as (_ & _ & D1). destruct (D1 dh E1) as (mj & m' & F1 & F2 & F3 & _). rewrite E2 in F1. injection F1 as <-.
    rewrite C3 in F2. injection F2 as <-. cbn [c wanted]. destruct Lk as (L1 & _). now rewrite <- L1. }
  destruct (same_css_same_style y e page l p loc c p1 x l' p2 loc' c p3 r s mi m m3 R (U p) P R2 NU (U p2) P3) as (x' & X1 & X2 & _ & X4 & X5); auto.
  exists x'. split; [auto|]. split; [congruence|]. split; [auto|].
  apply X5. intros mj [jj Hjj]. exists jj.
  rewrite Ke; [exact Hjj|intros []|].
  destruct (Nat.eq_dec jj dh) as [->|Nj]; [now right|left]. rewrite (Dd dh E3). congruence.
Qed.
Print Assumptions same_values_same_class.

(** ** Cases that meet the hypotheses *)

Lemma browser_ex : in_browser demo_env demo_page.
Proof.
  split; [reflexivity|]. split; [reflexivity|]. exists 0. destruct shop_ids as (_ & _ & I & H).
  repeat split; auto. apply demo_takes. lia.
Qed.
Lemma names_fresh_ex n : n <= 100 -> names_fresh demo_env demo_page n.
Proof.
  intros L. destruct shop_ids as ([A B] & _). split; [now left|].
  split; [intros i j Hi Hj; apply A; lia|]. intros id I i Hi. apply (B id I). lia.
Qed.

(** A text with strings, a nested rule and a comment, in the running program of [PropsCreate]. *)
Definition page_text : str := lit "/* }{ */ [a="",""] ,b {  c: ""};"" ;  @media  print { c: ""};"" } } ".
Definition page_call : call := SCreate (lit "menu") (CText page_text).
Example text_takes_effect_ex : exists x,
  snd (perform demo_env None page_call shop_prog) = Created x
  /\ page_says (a_world (p_app (fst (perform demo_env None page_call shop_prog)))) (lit "menu-style-2")
       (sheet_decls (Some (lit "menu-style-2")) demo_parsed)
  /\ List.length (sheet_decls (Some (lit "menu-style-2")) demo_parsed) = 2.
Proof.
  destruct shop_runs as (R & L & _).
  assert (I : get_id (a_world (p_app (fst (perform demo_env None page_call shop_prog)))) 2 = Some (lit "menu-style-2")) by (vm_compute; reflexivity).
  assert (C : snd (perform demo_env None page_call shop_prog) = Created 2) by (vm_compute; reflexivity).
  assert (D : w_draws (a_world (p_app (fst (perform demo_env None page_call shop_prog)))) = 3) by (vm_compute; reflexivity).
  destruct (perform demo_env None page_call shop_prog) as [p1 r] eqn:E. cbn [fst snd] in *.
  destruct (text_takes_effect shop_yew demo_env demo_page shop shop_prog None page_call p1 r page_text demo_parsed R L)
    as (x & id & X1 & X2 & X3); auto using browser_ex.
  - apply grammar_text_parses_ex.
  - solve_closed.
  - discriminate.
  - split; [reflexivity|]. repeat constructor.
  - apply names_fresh_ex. rewrite D. lia.
  - rewrite C in X1. injection X1 as <-. rewrite I in X2. injection X2 as <-. exists 2. split; [auto|]. split; [exact X3|reflexivity].
Qed.

(** [style!(color: ${c}; @media ...)], in the same program. *)
Example inline_takes_effect_ex : exists v id,
  page_says (a_world (p_app (fst (perform demo_env None (SNew (CSheet (erase_sheet v))) shop_prog)))) id
    (sheet_decls (Some id) example_sheet)
  /\ List.length (sheet_decls (Some id) example_sheet) = 6.
Proof.
  destruct shop_runs as (R & L & _). destruct inline_macro_ex as (items & g & v & Rd & E & V & _ & Sy).
  assert (Ev : inline_macro any_expr example_input = IExpands g /\ evaluate_all None [example_env] g = Some [v]) by auto.
  exists v.
  assert (D : w_draws (a_world (p_app (fst (perform demo_env None (SNew (CSheet (erase_sheet v))) shop_prog)))) = 3).
  { destruct Ev as [E1 E2]. vm_compute in E1. injection E1 as <-. vm_compute in E2. injection E2 as <-. vm_compute. reflexivity. }
  destruct (perform demo_env None (SNew (CSheet (erase_sheet v))) shop_prog) as [p1 r] eqn:P. cbn [fst] in *.
  destruct (inline_takes_effect any_expr example_input items g [example_env] [v] 0 example_env v example_sheet
    shop_yew demo_env demo_page shop shop_prog None (SNew (CSheet (erase_sheet v))) p1 r Rd E V) as (x & id & X1 & X2 & X3);
    auto using browser_ex; try reflexivity.
  - solve_closed.
  - discriminate.
  - apply names_fresh_ex. rewrite D. lia.
  - exists id. split; [exact X3|reflexivity].
Qed.

(** [style!("color: ${c}; a { width: ${ w}px; }", c = red, w = two,)], run twice: the second time
    the first expression has another value. *)
Definition page_lit (t : rtok) : option str := match t with RLit s => Some s | _ => None end.
Definition page_first : rtok := RLit (lit "color: ${c}; a { width: ${ w}px; }").
Definition page_rest : list rtok :=
  [RPunct (ch ",") false; RIdent (lit "c"); RPunct (ch "=") false; RIdent (lit "red"); RPunct (ch ",") false;
   RIdent (lit "w"); RPunct (ch "=") false; RIdent (lit "two"); RPunct (ch ",") false].
Definition page_env (t : string) (c : code) : str :=
  match c with [RIdent s] => if str_eqb s (lit "red") then lit t else lit "2" | _ => [] end.
Definition page_values : list osheet :=
  match lit_macro page_lit (page_first :: page_rest) with
  | Expands g => match evaluate_all None [page_env "#f00"; page_env "#00f"; page_env "#f00"] g with Some vs => vs | None => [] end
  | _ => []
  end.
Definition page_value (i : nat) : osheet := nth i page_values (CowOwned []).
Definition page_parsed : sheet :=
  [SBlock [] [CAttr (mk_attr (lit "color") [lit "${c}"])];
   SBlock [[lit "a"]] [CAttr (mk_attr (lit "width") [lit "${ w}px"])]].
Definition page_filled (color : string) : sheet :=
  [SBlock [] [CAttr (mk_attr (lit "color") [lit color])];
   SBlock [[lit "a"]] [CAttr (mk_attr (lit "width") [lit "2px"])]].
Lemma fills_text value s : s <> [] -> Forall (fun c => c <> ch "$" /\ c <> ch "{") s -> fills value s s.
Proof.
  intros H F. exists [Text s]. split; [constructor; [split; auto|constructor]|]. cbn. now rewrite app_nil_r.
Qed.
Lemma page_fills color :
  sheet_fills (argument [(lit "c", [RIdent (lit "red")]); (lit "w", [RIdent (lit "two")])] (page_env color))
    page_parsed (page_filled color).
Proof.
  constructor; [|constructor; [|constructor]].
  - apply like_sblock; [constructor|]. apply like_cons; [|apply like_nil]. apply like_attr. constructor; [|constructor].
    exists [Hole [] (lit "c") []]. split; [|split; [reflexivity|]].
    + constructor; [|constructor]. split; [constructor|]. split; [|constructor]. exists (ch "c"), []. repeat split. constructor.
    + cbn [flat_map piece_value]. rewrite app_nil_r. reflexivity.
  - apply like_sblock.
    + constructor; [|constructor]. constructor; [|constructor]. apply fills_text; [discriminate|]. constructor; [split; discriminate|constructor].
    + apply like_cons; [|apply like_nil]. apply like_attr. constructor; [|constructor].
      exists [Hole (lit " ") (lit "w") []; Text (lit "px")]. split; [|split; [reflexivity|reflexivity]].
      constructor; [|constructor; [|constructor]].
      * split; [constructor; [cbn; auto|constructor]|]. split; [|constructor]. exists (ch "w"), []. repeat split. constructor.
      * split; [discriminate|]. constructor; [split; discriminate|]. constructor; [split; discriminate|constructor].
Qed.
Definition page_expansion : gsheet :=
  match lit_macro page_lit (page_first :: page_rest) with Expands g => g | _ => GNow (GItems []) end.
Definition page_envs : list env := [page_env "#f00"; page_env "#00f"; page_env "#f00"].
Lemma page_evaluates :
  lit_macro page_lit (page_first :: page_rest) = Expands page_expansion
  /\ evaluate_all None page_envs page_expansion = Some page_values
  /\ List.length page_values = 3.
Proof. split; [vm_compute; reflexivity|]. split; vm_compute; reflexivity. Qed.
Definition macro_call (i : nat) : call := SNew (CSheet (erase_sheet (page_value i))).
Lemma page_after_literal : after_literal page_rest [(lit "c", [RIdent (lit "red")]); (lit "w", [RIdent (lit "two")])].
Proof.
  constructor. apply (al_more (lit "c") false [RIdent (lit "red")] false); [intros j [X|[]]; discriminate|].
  apply (al_more (lit "w") false [RIdent (lit "two")] false); [intros j [X|[]]; discriminate|]. constructor.
Qed.

Example literal_takes_effect_ex :
  page_says (a_world (p_app (fst (perform demo_env None (macro_call 1) shop_prog)))) (lit "stylist-style-2")
    (sheet_decls (Some (lit "stylist-style-2")) (page_filled "#00f")).
Proof.
  destruct shop_runs as (R & L & _). destruct page_evaluates as (E & V & _).
  assert (I : get_id (a_world (p_app (fst (perform demo_env None (macro_call 1) shop_prog)))) 2 = Some (lit "stylist-style-2")) by (vm_compute; reflexivity).
  assert (C : snd (perform demo_env None (macro_call 1) shop_prog) = Created 2) by (vm_compute; reflexivity).
  assert (D : w_draws (a_world (p_app (fst (perform demo_env None (macro_call 1) shop_prog)))) = 3) by (vm_compute; reflexivity).
  assert (Ps : parse (lit "color: ${c}; a { width: ${ w}px; }") = Parsed page_parsed) by (vm_compute; reflexivity).
  assert (V1 : nth_error page_values 1 = Some (page_value 1)) by (vm_compute; reflexivity).
  destruct (perform demo_env None (macro_call 1) shop_prog) as [p1 r] eqn:P. cbn [fst snd] in *.
  destruct (literal_takes_effect page_lit page_first page_rest _ page_parsed _ page_expansion page_envs page_values 1
     (page_env "#00f") (page_value 1) (page_filled "#00f") shop_yew demo_env demo_page shop shop_prog None (macro_call 1) p1 r
     eq_refl Ps page_after_literal E V eq_refl V1 (page_fills "#00f")) as (x & id & X1 & X2 & X3); auto using browser_ex; try reflexivity.
  - solve_closed.
  - discriminate.
  - apply names_fresh_ex. rewrite D. lia.
  - rewrite C in X1. injection X1 as <-. rewrite I in X2. injection X2 as <-. exact X3.
Qed.

(** The component is rendered with a red, a blue and again a red value, and drops its styles: the
    third class is the first one, its element is still there, and nothing new is written. *)
Definition page_between : list pop :=
  [PApp (AOp (ODropStyle 2)); PCall None (macro_call 1); PApp (AOp (ODropStyle 3))].
Definition page_prog1 : prog := fst (perform demo_env None (macro_call 0) shop_prog).
Definition page_prog2 : prog := match prun shop_yew demo_env page_prog1 page_between with Some p => p | None => shop_prog end.
Lemma page_rendered :
  perform demo_env None (macro_call 0) shop_prog = (page_prog1, Created 2)
  /\ get_id (a_world (p_app page_prog1)) 2 = Some (lit "stylist-style-2")
  /\ prun shop_yew demo_env page_prog1 page_between = Some page_prog2
  /\ existsb punregisters page_between = false /\ ploaded page_between = []
  /\ w_draws (a_world (p_app page_prog2)) = 4
  /\ w_handles (a_world (p_app page_prog2)) = [Some 0; Some 1; None; None].
Proof.
  split; [|vm_compute; repeat split; reflexivity].
  unfold page_prog1. assert (X : snd (perform demo_env None (macro_call 0) shop_prog) = Created 2) by (vm_compute; reflexivity).
  destruct (perform demo_env None (macro_call 0) shop_prog). cbn in *. now subst.
Qed.
Example class_stays_valid_ex : exists text,
  texts_of (lit "stylist-style-2") (w_dom (a_world (p_app page_prog2))) = [text].
Proof.
  destruct shop_runs as (R & L & _). destruct page_rendered as (P & I & R2 & NU & L2 & D & _).
  destruct (class_stays_valid shop_yew demo_env demo_page shop shop_prog None (macro_call 0) page_prog1 2 (lit "stylist-style-2")
    page_between page_prog2 R L) as (t & _ & T); auto using browser_ex; try reflexivity.
  - apply names_fresh_ex. rewrite D. lia.
  - rewrite L2. intros i [].
  - exists t. exact T.
Qed.
Example same_values_same_class_ex : exists x,
  snd (perform demo_env None (macro_call 2) page_prog2) = Created x
  /\ get_id (a_world (p_app (fst (perform demo_env None (macro_call 2) page_prog2)))) x = Some (lit "stylist-style-2")
  /\ w_dom (a_world (p_app (fst (perform demo_env None (macro_call 2) page_prog2)))) = w_dom (a_world (p_app page_prog2)).
Proof.
  destruct shop_runs as (R & L & _). destruct page_rendered as (P & I & R2 & NU & L2 & D & _). destruct page_evaluates as (E & V & _).
  assert (V0 : nth_error page_values 0 = Some (page_value 0)) by (vm_compute; reflexivity).
  assert (V2 : nth_error page_values 2 = Some (page_value 2)) by (vm_compute; reflexivity).
  destruct (perform demo_env None (macro_call 2) page_prog2) as [p3 r] eqn:P3. cbn [fst snd].
  destruct (same_values_same_class page_expansion page_envs page_values 0 2 (page_env "#f00") (page_env "#f00") (page_value 0) (page_value 2)
    shop_yew demo_env demo_page shop shop_prog None page_prog1 2 page_between page_prog2 None p3 r (lit "stylist-style-2")
    V eq_refl eq_refl (fun _ => eq_refl) V0 V2 R P I R2 NU P3) as (x & X1 & X2 & _ & X4). exists x. auto.
Qed.
(** The blue one has another class, as its CSS is another. *)
Example same_class_same_css_ex :
  css_sheet (call_css (macro_call 0)) <> css_sheet (call_css (macro_call 1))
  /\ forall p3 x' id, perform demo_env None (macro_call 1) page_prog1 = (p3, Created x') ->
       get_id (a_world (p_app p3)) x' = Some id -> id <> lit "stylist-style-2".
Proof.
  assert (Ne : css_sheet (call_css (macro_call 0)) <> css_sheet (call_css (macro_call 1))) by (vm_compute; discriminate).
  split; [exact Ne|]. intros p3 x' id P3 Gi ->.
  destruct shop_runs as (R & L & _). destruct page_rendered as (P & I & _).
  assert (D : w_draws (a_world (p_app p3)) = 4).
  { replace p3 with (fst (perform demo_env None (macro_call 1) page_prog1)) by now rewrite P3. vm_compute. reflexivity. }
  destruct (same_class_same_css shop_yew demo_env demo_page shop shop_prog None (macro_call 0) page_prog1 2 [] page_prog1 None
    (macro_call 1) p3 x' (lit "stylist-style-2")) as (s & mi & m & m' & C1 & C2 & _); auto.
  - rewrite D. apply (names_fresh_ex 4). lia.
  - congruence.
Qed.
