(** * PropsCreate: the constructors of styles, from text to document (C66-C69). *)

From Coq Require Import String Ascii List NArith Bool Arith Lia Permutation.
From Verif Require Import Str StrFacts Ast Render CssParser SheetCache Ids IdFacts Manager SpecManager
  ManagerFacts ManagerInv ManagerSteps ManagerCore ManagerProps Hydrate Hooks SpecHooks HookFacts HookOnly
  HookKeep PropsManager PropsHooks PropsCache SpecProgress Create SpecCreate CreateFacts.
Import ListNotations.
Local Open Scope list_scope.
Local Opaque parse to_style_str.

Lemma has_default_iff e page ids p : pgood e page ids p ->
  (has_default e p <-> default_manager e (p_app p) <> None).
Proof.
  intros (K & G & D). unfold has_default, default_manager. destruct (a_default (p_app p)) as [d|] eqn:E.
  - split; [intros _|left; discriminate]. destruct (D d E) as (mi & m & Hd & _). cbn [step]. unfold clone_manager. rewrite Hd. discriminate.
  - cbn [step]. unfold build. cbv zeta. destruct (e_wasm e) eqn:W.
    + destruct (e_document e) eqn:Dc.
      * destruct (e_head e) as [k|] eqn:He.
        -- split; [intros _|right; right; split; auto; discriminate]. unfold clone_manager. cbn [w_mhandles with_mhandles with_mgrs].
           unfold handle_of. rewrite nth_app_new. discriminate.
        -- split; [intros [H|[H|[_ H]]]; congruence|congruence].
      * split; [intros [H|[H|[H _]]]; congruence|congruence].
    + split; [intros _|auto]. unfold clone_manager. cbn [w_mhandles with_mhandles with_mgrs].
      unfold handle_of. rewrite nth_app_new. discriminate.
Qed.

Lemma created_default e loc c p p1 x :
  perform e loc c p = (p1, Created x) -> call_handle c = None -> default_manager e (p_app p) <> None.
Proof. intros H Hc D. destruct (perform_default _ _ _ _ _ _ Hc D H) as [_ X]. discriminate. Qed.

(** ** C69: the default manager *)

(** Whenever there is a default manager it is as documented, whatever the program did. *)
Theorem default_manager_documented : forall y e page l p,
  prun y e (prog_start page) l = Some p -> default_as_documented e (p_app p).
Proof. intros y e page l p H. apply pgood_reached in H. apply H. Qed.
Print Assumptions default_manager_documented.

(** There is one: once a thread has a default manager it keeps it, under the same handle. *)
Theorem default_manager_stays : forall y e page l p o p1 d,
  prun y e (prog_start page) l = Some p -> pstep y e p o = Some p1 -> a_default (p_app p) = Some d ->
  a_default (p_app p1) = Some d
  /\ handle_of (w_mhandles (a_world (p_app p1))) d = handle_of (w_mhandles (a_world (p_app p))) d.
Proof.
  intros y e page l p o p1 d H S E. apply pgood_reached in H. pose proof (pgood_pstep _ _ _ _ _ _ _ H S) as G1.
  assert (Ed : a_default (p_app p1) = Some d /\ passes (w_mhandles (a_world (p_app p))) (w_mhandles (a_world (p_app p1)))).
  { destruct (punregisters o) eqn:U.
    - destruct o as [o| |]; try discriminate. cbn [pstep] in S. destruct (astep y e (p_app p) o) as [a|] eqn:A; [|discriminate]. injection S as <-.
      cbn [p_app]. destruct H as (_ & G & _). pose proof (passes_astep _ _ _ _ _ _ _ G A) as P. split; auto.
      destruct o as [o| | | | |]; try discriminate. cbn [astep] in A. destruct (free _ _ && free _ _); [|discriminate].
      destruct (step e _ o) as [w [ | | | | | ]]; try discriminate; now injection A as <-.
    - destruct (steps_pstep _ _ _ _ _ _ _ H S U) as [St Dd]. split; auto. eapply passes_steps; eauto. }
  destruct Ed as [E1 P]. split; auto. destruct H as (_ & _ & D). destruct G1 as (_ & _ & D1).
  destruct (D d E) as (mi & _ & Hd & _). destruct (D1 d E1) as (mj & _ & Hd1 & _). rewrite Hd, Hd1. f_equal.
  eapply passes_same; eauto.
Qed.
Print Assumptions default_manager_stays.

(** ** C66: creating a style *)

(** What is created is what was asked for: the style has the given CSS, the prefix that was
    given or else that of the manager, and is registered in the manager that was given, or else
    in the default one. *)
Theorem created_as_asked : forall y e page l p loc c p1 x,
  prun y e (prog_start page) l = Some p -> user_call (p_app p) c = true ->
  perform e loc c p = (p1, Created x) ->
  exists s mi m cid d,
    css_sheet (call_css c) = Some s
    /\ call_manager_is p p1 c mi /\ nth_error (w_mgrs (a_world (p_app p1))) mi = Some m
    /\ (call_handle c = None -> m_prefix m = lit "stylist")
    /\ w_handles (a_world (p_app p1)) = w_handles (a_world (p_app p)) ++ [Some cid]
    /\ x = List.length (w_handles (a_world (p_app p)))
    /\ nth_error (w_contents (a_world (p_app p1))) cid = Some d
    /\ c_key d = wanted c m s /\ c_mgr d = mi
    /\ (mlive (a_world (p_app p1)) mi -> registered (a_world (p_app p1)) mi (wanted c m s) cid)
    /\ (c_hydrated d = false ->
        c_text d = to_style_str (if k_global (wanted c m s) then None else Some (c_id d)) s
        /\ exists n, n < w_draws (a_world (p_app p1))
             /\ c_id d = new_id (k_global (wanted c m s)) (k_prefix (wanted c m s)) (e_draw e n)).
Proof.
  intros y e page l p loc c p1 x H U P. apply pgood_reached in H. pose proof H as (K & G & D).
  pose proof (created_default _ _ _ _ _ _ P) as N.
  destruct (perform_spec e page _ loc c p p1 _ K G U N P) as (K1 & Eg & G1 & Dd & De & _ & _ & mi & m & Mi & Hm & S & Di).
  pose proof (perform_documented e page _ loc c p p1 _ H U N P) as D1.
  destruct (css_sheet (call_css c)) as [s|]; [|now destruct Di]. destruct Di as [Ma _]. cbn [made] in Ma.
  destruct Ma as (cid & d & M1 & M2 & M3 & M4 & M5 & M6).
  exists s, mi, m, cid, d. split; auto. split; auto. split; auto. split.
  { intros Hc. unfold call_manager_is, context_is in Mi. rewrite Hc in Mi. destruct Mi as (dh & E1 & E2).
    destruct (D1 dh E1) as (mj & m' & F1 & F2 & F3 & _). rewrite E2 in F1. injection F1 as <-. rewrite Hm in F2. now injection F2 as <-. }
  split; auto. split; auto. split; auto. split; auto. split; auto. split; auto. intros Hy.
  pose proof (good_core _ _ _ _ _ _ G1) as Co.
  destruct (o_content _ _ _ _ Co _ _ M3) as [_ Tx]. unfold text_of, style_text in Tx. rewrite Hy, M4 in Tx.
  pose proof (o_origin _ _ _ _ Co _ _ M3) as Or. rewrite Hy in Or. destruct Or as (n & Ln & Id). unfold made_id in Id. rewrite M4 in Id.
  split; [|exists n; auto]. rewrite Tx. assert (A : k_ast (wanted c m s) = s) by now destruct c. rewrite A.
  now destruct (k_global (wanted c m s)).
Qed.
Print Assumptions created_as_asked.

(** It is in the document: a style that was created in a manager that mounts into a container of
    the document has its element there, with the CSS of the text, under its class name. *)
Theorem created_is_in_document : forall y e page l p loc c p1 x mi m k,
  prun y e (prog_start page) l = Some p -> ploaded l = [] -> user_call (p_app p) c = true ->
  perform e loc c p = (p1, Created x) ->
  call_manager_is p p1 c mi -> nth_error (w_mgrs (a_world (p_app p1))) mi = Some m ->
  m_data m = None -> m_container m = Some k -> in_document page k ->
  e_wasm e = true -> e_document e = true ->
  ids_apart e page (w_draws (a_world (p_app p1))) -> (forall n, forallb ident_char (e_draw e n) = true) ->
  (forall s, plain_ident (k_prefix (wanted c m s)) = true) ->
  exists s id,
    css_sheet (call_css c) = Some s /\ get_id (a_world (p_app p1)) x = Some id
    /\ texts_of id (w_dom (a_world (p_app p1)))
       = [to_style_str (if k_global (wanted c m s) then None else Some id) s].
Proof.
  intros y e page l p loc c p1 x mi m k H Ld U P Mi Hm Md Mc Ic W Dc Ap Pl Pp.
  destruct (created_as_asked y e page l p loc c p1 x H U P) as (s & mi' & m' & cid & d & C1 & C2 & C3 & _ & C5 & C6 & C7 & C8 & C9 & _ & C11).
  assert (Em : mi = mi').
  { unfold call_manager_is, context_is in *. destruct (call_handle c); [congruence|]. destruct Mi as (d1 & A1 & A2), C2 as (d2 & B1 & B2). congruence. }
  subst mi. rename mi' into mi. rewrite Hm in C3. injection C3 as <-.
  apply pgood_reached in H. rewrite Ld in H. pose proof H as (K & G & D).
  pose proof (created_default _ _ _ _ _ _ P) as N.
  destruct (perform_spec e page _ loc c p p1 _ K G U N P) as (_ & _ & G1 & _).
  pose proof (good_core _ _ _ _ _ _ G1) as Co. destruct (gd_reach _ _ _ _ _ _ G1) as (l0 & Re & El).
  pose proof (o_origin _ _ _ _ Co _ _ C7) as Or. destruct (c_hydrated d) eqn:Hy; [contradiction|].
  destruct (C11 eq_refl) as (Tx & n & Ln & Id).
  assert (Hx : handle_of (w_handles (a_world (p_app p1))) x = Some cid).
  { rewrite C5, C6. unfold handle_of. now rewrite nth_app_new. }
  exists s, (c_id d). split; auto. split.
  { unfold get_id, handle_content. now rewrite Hx, C7. }
  rewrite <- Tx. eapply in_document_exactly_while_alive; eauto.
  - now apply ids_no_clash.
  - split; [exact Hy|]. exists m. now rewrite C9.
  - rewrite Id. apply plain_prefix_plain_id; auto.
  - left. now exists x.
Qed.
Print Assumptions created_is_in_document.

(** In particular: [Style::new], [Style::create] and [GlobalStyle::new] put it in
    [document.head]. *)
Theorem created_is_in_the_head : forall y e page l p loc c p1 x k,
  prun y e (prog_start page) l = Some p -> ploaded l = [] -> user_call (p_app p) c = true ->
  perform e loc c p = (p1, Created x) ->
  call_handle c = None -> (forall prefix cs, c = SCreate prefix cs -> plain_ident prefix = true) ->
  e_wasm e = true -> e_document e = true -> e_head e = Some k -> in_document page k ->
  ids_apart e page (w_draws (a_world (p_app p1))) -> (forall n, forallb ident_char (e_draw e n) = true) ->
  exists s id,
    css_sheet (call_css c) = Some s /\ get_id (a_world (p_app p1)) x = Some id
    /\ texts_of id (w_dom (a_world (p_app p1)))
       = [to_style_str (match c with GNew _ => None | _ => Some id end) s].
Proof.
  intros y e page l p loc c p1 x k H Ld U P Hc Pr W Dc Hh Ic Ap Pl.
  destruct (created_as_asked y e page l p loc c p1 x H U P) as (s & mi & m & cid & d & C1 & C2 & C3 & C4 & _).
  pose proof (pgood_reached _ _ _ _ _ H) as Pg. pose proof (created_default _ _ _ _ _ _ P) as N.
  pose proof (perform_documented e page _ loc c p p1 _ Pg U N P) as D1.
  pose proof C2 as Mi. unfold call_manager_is, context_is in Mi. rewrite Hc in Mi. destruct Mi as (dh & E1 & E2).
  destruct (D1 dh E1) as (mj & m' & F1 & F2 & F3 & F4 & _ & F5). rewrite E2 in F1. injection F1 as <-. rewrite C3 in F2. injection F2 as <-.
  rewrite W, Hh in F5.
  destruct (created_is_in_document y e page l p loc c p1 x mi m k H Ld U P C2 C3 F4 F5 Ic W Dc Ap Pl) as (s' & id & R1 & R2 & R3).
  { intros s0. destruct c; try discriminate; cbn [wanted k_prefix]; try (rewrite F3; reflexivity). eapply Pr; eauto. }
  exists s', id. split; auto. split; auto. rewrite R3. now destruct c.
Qed.
Print Assumptions created_is_in_the_head.

(** Creating succeeds: for CSS whose generated text passes the check of debug builds, in a
    manager that can put it somewhere. *)
Theorem call_succeeds : forall y e page l p loc c p1 r s,
  prun y e (prog_start page) l = Some p -> user_call (p_app p) c = true ->
  (call_handle c = None -> has_default e p) ->
  css_sheet (call_css c) = Some s -> perform e loc c p = (p1, r) ->
  (forall mi m, call_manager_is p p1 c mi -> nth_error (w_mgrs (a_world (p_app p1))) mi = Some m ->
     settles e page m /\ rereads e (wanted c m s)) ->
  exists x, r = Created x.
Proof.
  intros y e page l p loc c p1 r s H U Hd Hs P Ok. apply pgood_reached in H. pose proof H as (K & G & D).
  assert (N : call_handle c = None -> default_manager e (p_app p) <> None) by (intros Hc; apply (has_default_iff _ _ _ _ H); auto).
  destruct (perform_spec e page _ loc c p p1 _ K G U N P) as (_ & _ & _ & _ & _ & _ & _ & mi & m & Mi & Hm & S & Di).
  rewrite Hs in Di. destruct Di as (_ & _ & Su). destruct (Ok _ _ Mi Hm) as [O1 O2]. now apply Su.
Qed.
Print Assumptions call_succeeds.

(** Text that is not CSS: the error of the parser, whatever else is given ... *)
Theorem parse_error_iff : forall y e page l p loc c p1 r,
  prun y e (prog_start page) l = Some p -> user_call (p_app p) c = true ->
  (call_handle c = None -> has_default e p) -> perform e loc c p = (p1, r) ->
  (r = ParseError <-> css_sheet (call_css c) = None).
Proof.
  intros y e page l p loc c p1 r H U Hd P. apply pgood_reached in H. pose proof H as (K & G & D).
  assert (N : call_handle c = None -> default_manager e (p_app p) <> None) by (intros Hc; apply (has_default_iff _ _ _ _ H); auto).
  destruct (perform_spec e page _ loc c p p1 _ K G U N P) as (_ & _ & _ & _ & _ & _ & _ & mi & m & Mi & Hm & S & Di).
  destruct (css_sheet (call_css c)); [|split; [auto|]; intros _; apply Di].
  destruct Di as (Ma & _). split; [|discriminate]. intros ->. destruct Ma.
Qed.
Print Assumptions parse_error_iff.

(** ... and nothing is left of the attempt: no style, no element, nothing registered, no class
    name used up.  (What was handed over is dropped.  That can be the last handle of its manager,
    whose styles then go with it.) *)
Theorem parse_error_leaves_nothing : forall y e page l p loc c p1,
  prun y e (prog_start page) l = Some p -> user_call (p_app p) c = true ->
  perform e loc c p = (p1, ParseError) ->
  w_handles (a_world (p_app p1)) = w_handles (a_world (p_app p))
  /\ w_draws (a_world (p_app p1)) = w_draws (a_world (p_app p))
  /\ ((forall mi, mlive (a_world (p_app p)) mi -> mlive (a_world (p_app p1)) mi) ->
      same_styles (a_world (p_app p)) (a_world (p_app p1)))
  /\ (call_handle c = None -> same_styles (a_world (p_app p)) (a_world (p_app p1))).
Proof.
  intros y e page l p loc c p1 H U P. apply pgood_reached in H. pose proof H as (K & G & D).
  assert (N : call_handle c = None -> default_manager e (p_app p) <> None).
  { intros Hc Dn. destruct (perform_default _ _ _ _ _ _ Hc Dn P) as [_ X]. discriminate. }
  destruct (perform_spec e page _ loc c p p1 _ K G U N P) as (_ & _ & G1 & Dd & _ & Gi & Ke & mi & m & Mi & Hm & S & Di).
  destruct (css_sheet (call_css c)) as [s|] eqn:Cs; [destruct Di as [[] _]|]. destruct Di as (_ & L1 & L2 & L3).
  split; auto. split; auto. split; auto. intros Hc. apply L3. intros mj [j Hj].
  assert (Eq : given c = []). { unfold given. rewrite Hc. destruct (call_css c); try discriminate. reflexivity. }
  rewrite Eq in Ke. destruct (a_default (p_app p1)) as [d|] eqn:Ed.
  - destruct (Nat.eq_dec j d) as [->|Nj].
    + destruct (a_default (p_app p)) as [d'|] eqn:Ed'.
      * exists d. rewrite Ke; auto. right. specialize (Dd d' eq_refl). congruence.
      * exfalso. destruct (default_first e page _ (p_app p) G Ed') as [X|(a0 & h0 & D1 & D2 & D3 & D4 & D5 & D6 & D7)]; [now apply N|].
        rewrite (perform_first e loc c p a0 Hc D1) in P by (rewrite <- D1; auto).
        destruct (perform_spec e page _ loc c (mk_prog a0 (p_cache p)) p1 ParseError K D3) with (3 := P) as (_ & _ & _ & Dd' & _);
          [eapply user_call_first; eauto|cbn [p_app]; rewrite <- D1; auto|]. rewrite (Dd' h0 D2) in Ed. injection Ed as <-.
        subst h0. unfold handle_of in Hj. now rewrite (proj2 (nth_error_None _ _)) in Hj.
    + exists j. rewrite Ke; auto. left. congruence.
  - exists j. rewrite Ke; auto. left. discriminate.
Qed.
Print Assumptions parse_error_leaves_nothing.

(** A constructor does not panic but returns what is wrong, if the check of debug builds passes:
    an error of the parser, or that the style could not be put anywhere. *)
Theorem call_reports_errors : forall y e page l p loc c p1 r,
  prun y e (prog_start page) l = Some p -> user_call (p_app p) c = true ->
  (call_handle c = None -> has_default e p) -> perform e loc c p = (p1, r) ->
  (forall s mi m, css_sheet (call_css c) = Some s -> call_manager_is p p1 c mi ->
     nth_error (w_mgrs (a_world (p_app p1))) mi = Some m -> rereads e (wanted c m s)) ->
  match r with
  | Created x => exists d, handle_content (a_world (p_app p1)) x = Some d
  | ParseError => css_sheet (call_css c) = None
  | WebError => css_sheet (call_css c) <> None
      /\ forall mi m, call_manager_is p p1 c mi -> nth_error (w_mgrs (a_world (p_app p1))) mi = Some m -> ~ settles e page m
  | Panicked => False
  end.
Proof.
  intros y e page l p loc c p1 r H U Hd P Ok. pose proof (parse_error_iff _ _ _ _ _ _ _ _ _ H U Hd P) as Pe. apply pgood_reached in H. pose proof H as (K & G & D).
  assert (N : call_handle c = None -> default_manager e (p_app p) <> None) by (intros Hc; apply (has_default_iff _ _ _ _ H); auto).
  destruct (perform_spec e page _ loc c p p1 _ K G U N P) as (_ & _ & _ & _ & _ & _ & _ & mi & m & Mi & Hm & S & Di).
  destruct (css_sheet (call_css c)) as [s|] eqn:Cs.
  - destruct Di as (Ma & _ & Su). destruct (Su (Ok s mi m eq_refl Mi Hm)) as [Np Se]. destruct r as [x| | |].
    + destruct Ma as (cid & d & M1 & M2 & M3 & _). exists d. unfold handle_content. rewrite M1, M2, handle_app_eq, Nat.eqb_refl. exact M3.
    + now apply Pe.
    + split; [discriminate|]. intros mj m' Mi' Hm' St.
      assert (mj = mi).
      { unfold call_manager_is, context_is in *. destruct (call_handle c); [congruence|]. destruct Mi as (d & A & B), Mi' as (d' & A' & B'). congruence. }
      subst mj. rewrite Hm in Hm'. injection Hm' as <-. destruct (Se St) as [x X]. discriminate.
    + congruence.
  - destruct Di as [-> _]. reflexivity.
Qed.
Print Assumptions call_reports_errors.

(** ** C67: the same CSS is the same style *)

(** Asking for a style that its manager has already gives that style: the same class name and
    text; nothing is written. *)
Theorem registered_style_is_reused : forall y e page l p loc c s mi m cid p1 r,
  prun y e (prog_start page) l = Some p -> user_call (p_app p) c = true ->
  (call_handle c = None -> has_default e p) -> perform e loc c p = (p1, r) ->
  css_sheet (call_css c) = Some s -> call_manager_is p p1 c mi ->
  nth_error (w_mgrs (a_world (p_app p1))) mi = Some m ->
  registered (a_world (p_app p)) mi (wanted c m s) cid ->
  exists x, r = Created x
    /\ w_handles (a_world (p_app p1)) = w_handles (a_world (p_app p)) ++ [Some cid]
    /\ x = List.length (w_handles (a_world (p_app p)))
    /\ w_draws (a_world (p_app p1)) = w_draws (a_world (p_app p))
    /\ ((forall mj, mlive (a_world (p_app p)) mj -> mlive (a_world (p_app p1)) mj) ->
        nothing_new (a_world (p_app p)) (a_world (p_app p1))).
Proof.
  intros y e page l p loc c s mi m cid p1 r H U Hd P Cs Mi Hm R. apply pgood_reached in H. pose proof H as (K & G & D).
  assert (N : call_handle c = None -> default_manager e (p_app p) <> None) by (intros Hc; apply (has_default_iff _ _ _ _ H); auto).
  destruct (perform_spec e page _ loc c p p1 _ K G U N P) as (_ & _ & _ & _ & _ & _ & _ & mi' & m' & Mi' & Hm' & S & Di).
  assert (Em : mi = mi').
  { unfold call_manager_is, context_is in *. destruct (call_handle c); [congruence|]. destruct Mi as (d1 & A1 & A2), Mi' as (d2 & B1 & B2). congruence. }
  subst mi. rename mi' into mi. rewrite Hm in Hm'. injection Hm' as <-. rewrite Cs in Di. destruct Di as (Ma & Re & _).
  destruct (Re cid R) as (x & -> & R1 & R2 & R3). exists x. destruct Ma as (_ & _ & _ & Ex & _). auto.
Qed.
Print Assumptions registered_style_is_reused.

(** Two constructors, at any two times, that ask for scoped styles with the same CSS and prefix
    in the same manager: the second gives the style of the first, though the texts may differ,
    unless user code has unregistered it. *)
Theorem same_css_same_style : forall y e page l p loc c p1 x l' p2 loc' c' p3 r s mi m m',
  prun y e (prog_start page) l = Some p -> user_call (p_app p) c = true ->
  perform e loc c p = (p1, Created x) ->
  prun y e p1 l' = Some p2 -> existsb punregisters l' = false ->
  user_call (p_app p2) c' = true -> perform e loc' c' p2 = (p3, r) ->
  (call_handle c' = None -> has_default e p2) ->
  css_sheet (call_css c) = Some s -> css_sheet (call_css c') = Some s ->
  call_manager_is p p1 c mi -> call_manager_is p2 p3 c' mi -> mlive (a_world (p_app p2)) mi ->
  nth_error (w_mgrs (a_world (p_app p1))) mi = Some m ->
  nth_error (w_mgrs (a_world (p_app p3))) mi = Some m' ->
  wanted c m s = wanted c' m' s -> k_global (wanted c m s) = false ->
  exists x', r = Created x'
    /\ get_id (a_world (p_app p3)) x' = get_id (a_world (p_app p1)) x
    /\ get_style_str (a_world (p_app p3)) x' = get_style_str (a_world (p_app p1)) x
    /\ w_draws (a_world (p_app p3)) = w_draws (a_world (p_app p2))
    /\ ((forall mj, mlive (a_world (p_app p2)) mj -> mlive (a_world (p_app p3)) mj) ->
        nothing_new (a_world (p_app p2)) (a_world (p_app p3))).
Proof.
  intros y e page l p loc c p1 x l' p2 loc' c' p3 r s mi m m' H U P H2 NU U2 P3 Hd2 Cs Cs' Mi Mi' Lv Hm Hm' Ek Kg.
  destruct (created_as_asked y e page l p loc c p1 x H U P) as (s0 & mi0 & m0 & cid & d & C1 & C2 & C3 & _ & C5 & C6 & C7 & C8 & C9 & C10 & _).
  rewrite Cs in C1. injection C1 as <-.
  assert (Em : mi = mi0).
  { unfold call_manager_is, context_is in *. destruct (call_handle c); [congruence|]. destruct Mi as (d1 & A1 & A2), C2 as (d2 & B1 & B2). congruence. }
  subst mi. rename mi0 into mi. rewrite Hm in C3. injection C3 as <-.
  assert (H1 : prun y e (prog_start page) (l ++ [PCall loc c]) = Some p1).
  { assert (A : forall l q, prun y e q l = Some p -> prun y e q (l ++ [PCall loc c]) = Some p1).
    { clear - U P. induction l as [|o l IH]; intros q Hq; cbn [prun List.app] in *.
      - injection Hq as ->. cbn [pstep]. now rewrite U, P.
      - destruct (pstep y e q o); [auto|discriminate]. }
    auto. }
  assert (H12 : prun y e (prog_start page) ((l ++ [PCall loc c]) ++ l') = Some p2).
  { assert (A : forall l q, prun y e q l = Some p1 -> prun y e q (l ++ l') = Some p2).
    { clear - H2. induction l as [|o l IH]; intros q Hq; cbn [prun List.app] in *.
      - now injection Hq as ->.
      - destruct (pstep y e q o); [auto|discriminate]. }
    auto. }
  pose proof (pgood_reached _ _ _ _ _ H1) as G1. pose proof (pgood_reached _ _ _ _ _ H12) as G2.
  destruct (steps_prun y e page l' _ p1 p2 G1 H2 NU) as [S _].
  pose proof G1 as (_ & G1a & _). pose proof (good_cored _ _ _ _ _ _ G1a) as Co1.
  assert (Lv1 : mlive (a_world (p_app p1)) mi).
  { apply (mlive_steps e (a_world (p_app p1)) (a_world (p_app p2))); auto. apply nth_error_Some. congruence. }
  assert (R2 : registered (a_world (p_app p2)) mi (wanted c m s) cid).
  { destruct (keep_steps e _ _ mi _ cid S Co1 Kg (C10 Lv1)) as [X|[_ X]]; auto. destruct Lv as [j Hj]. now elim (X j). }
  rewrite Ek in R2.
  destruct (registered_style_is_reused y e page _ p2 loc' c' s mi m' cid p3 r H12 U2 Hd2 P3 Cs' Mi' Hm' R2) as (x' & Er & X1 & X2 & X3 & X4).
  exists x'. split; auto.
  pose proof G2 as (K2 & G2a & _).
  assert (N2 : call_handle c' = None -> default_manager e (p_app p2) <> None) by (intros Hc; apply (has_default_iff _ _ _ _ G2); auto).
  destruct (perform_spec e page _ loc' c' p2 p3 r K2 G2a U2 N2 P3) as (_ & _ & _ & _ & _ & _ & _ & mi'' & m'' & _ & _ & S3 & _).
  destruct (steps_contents e _ _ cid d (steps_trans _ _ _ _ S S3) C7) as (d3 & Hd3 & B). apply base_fields in B. destruct B as (B1 & B2 & B3 & _).
  assert (Hx : handle_of (w_handles (a_world (p_app p1))) x = Some cid) by (rewrite C5, C6; unfold handle_of; now rewrite nth_app_new).
  assert (Hx' : handle_of (w_handles (a_world (p_app p3))) x' = Some cid) by (rewrite X1, X2; unfold handle_of; now rewrite nth_app_new).
  unfold get_id, get_style_str, handle_content. rewrite Hx, Hx', C7, Hd3. cbn. split; [congruence|]. split; [congruence|]. auto.
Qed.
Print Assumptions same_css_same_style.

(** ** C68: constructors give back what they take *)

(** The managers handed over are dropped, whether the call succeeds or not; every other handle
    is as it was; the only handle the library keeps is that of the default manager; the caller
    gets one handle of a style if the call succeeds, none if it does not. *)
Theorem constructors_give_back : forall y e page l p loc c p1 r,
  prun y e (prog_start page) l = Some p -> user_call (p_app p) c = true ->
  (call_handle c = None -> has_default e p) -> perform e loc c p = (p1, r) ->
  (forall j, In j (given c) -> handle_of (w_mhandles (a_world (p_app p1))) j = None)
  /\ (forall j, ~ In j (given c) -> a_default (p_app p1) <> Some j \/ a_default (p_app p) = Some j ->
        handle_of (w_mhandles (a_world (p_app p1))) j = handle_of (w_mhandles (a_world (p_app p))) j)
  /\ (call_handle c <> None -> a_default (p_app p1) = a_default (p_app p))
  /\ a_globals (p_app p1) = a_globals (p_app p)
  /\ match r with
     | Created x => exists cid, w_handles (a_world (p_app p1)) = w_handles (a_world (p_app p)) ++ [Some cid]
                                /\ x = List.length (w_handles (a_world (p_app p)))
     | _ => w_handles (a_world (p_app p1)) = w_handles (a_world (p_app p))
     end.
Proof.
  intros y e page l p loc c p1 r H U Hd P. apply pgood_reached in H. pose proof H as (K & G & D).
  assert (N : call_handle c = None -> default_manager e (p_app p) <> None) by (intros Hc; apply (has_default_iff _ _ _ _ H); auto).
  destruct (perform_spec e page _ loc c p p1 _ K G U N P) as (_ & Eg & _ & _ & De & Gi & Ke & mi & m & Mi & Hm & S & Di).
  split; auto. split; auto. split; auto. split; auto. destruct (css_sheet (call_css c)) as [s|].
  - destruct Di as (Ma & _). destruct r; auto; [|destruct Ma]. destruct Ma as (cid & d & A1 & A2 & _). eauto.
  - destruct Di as (-> & A & _). exact A.
Qed.
Print Assumptions constructors_give_back.

(** ** A case that meets the hypotheses *)

(** A page with a head and a body; a manager on the body; styles from text, in both. *)
Definition shop_yew : yew := mk_yew true true.
Definition shop : list pop :=
  [PApp (AOp (OBuild (lit "shop") (Some 1) true false));
   PCall None (SNew (CText (lit "color: red;")));
   PParse (lit "}");
   PCall None (SCreateWith (lit "cart") (CText (lit "margin: 0; &:hover { color: blue; }")) 0)].
Definition shop_prog : prog :=
  match prun shop_yew demo_env (prog_start demo_page) shop with Some p => p | None => prog_start demo_page end.

Example shop_runs :
  prun shop_yew demo_env (prog_start demo_page) shop = Some shop_prog
  /\ ploaded shop = [] /\ a_default (p_app shop_prog) = Some 1
  /\ map (fun h => get_id (a_world (p_app shop_prog)) h) [0; 1] = [Some (lit "stylist-style-0"); Some (lit "cart-style-1")]
  /\ w_mhandles (a_world (p_app shop_prog)) = [None; Some 1; None; None]
  /\ List.length (p_cache shop_prog) = 2.
Proof. vm_compute. repeat split; reflexivity. Qed.

Definition shop_again : call := SNew (CText (lit "color:red;")).
Definition shop_new : call := SCreate (lit "menu") (CText (lit "color:green;")).
Definition shop_bad : call := GNew (CText (lit "}")).

(** A second text for the first style, a new style, and text that is not CSS. *)
Example shop_calls :
  user_call (p_app shop_prog) shop_again = true /\ user_call (p_app shop_prog) shop_new = true
  /\ user_call (p_app shop_prog) shop_bad = true
  /\ has_default demo_env shop_prog
  /\ snd (perform demo_env None shop_again shop_prog) = Created 2
  /\ get_id (a_world (p_app (fst (perform demo_env None shop_again shop_prog)))) 2 = Some (lit "stylist-style-0")
  /\ snd (perform demo_env None shop_new shop_prog) = Created 2
  /\ texts_of (lit "menu-style-2") (w_dom (a_world (p_app (fst (perform demo_env None shop_new shop_prog)))))
     = [lit ".menu-style-2 {
    color: green;
}
"]
  /\ snd (perform demo_env None shop_bad shop_prog) = ParseError
  /\ css_sheet (call_css shop_bad) = None.
Proof.
  split; [now vm_compute|]. split; [now vm_compute|]. split; [now vm_compute|].
  split; [left; vm_compute; discriminate|]. vm_compute. repeat split; reflexivity.
Qed.

(** The hypotheses on the document and the class names. *)
Example shop_ids :
  ids_apart demo_env demo_page 100 /\ (forall n, forallb ident_char (e_draw demo_env n) = true)
  /\ in_document demo_page 0 /\ e_head demo_env = Some 0.
Proof.
  destruct (demo_no_clash 100) as (A & B & _); [vm_compute; discriminate|]. split; [split; auto|].
  split; [apply entropy_is_plain|]. split; [eexists; split; reflexivity|reflexivity].
Qed.

(** ... so the theorems apply: the style is there, and asked for again it is the same. *)
Example shop_in_the_head : exists s id,
  css_sheet (CText (lit "color:green;")) = Some s
  /\ get_id (a_world (p_app (fst (perform demo_env None shop_new shop_prog)))) 2 = Some id
  /\ texts_of id (w_dom (a_world (p_app (fst (perform demo_env None shop_new shop_prog))))) = [to_style_str (Some id) s].
Proof.
  destruct shop_runs as (R & L & _). destruct shop_calls as (_ & U & _ & _ & _ & _ & C & _).
  destruct shop_ids as (Ap & Pl & Ic & He).
  destruct (perform demo_env None shop_new shop_prog) as [p1 r] eqn:E. cbn [fst snd] in *. subst r.
  destruct (created_is_in_the_head shop_yew demo_env demo_page shop shop_prog None shop_new p1 2 0 R L U E) as (s & id & H1 & H2 & H3); auto.
  - intros prefix cs X. injection X as <- _. reflexivity.
  - destruct Ap as [A B]. assert (W : w_draws (a_world (p_app p1)) <= 100).
    { replace p1 with (fst (perform demo_env None shop_new shop_prog)) by now rewrite E. vm_compute. repeat constructor. }
    split; [intros i j Hi Hj; apply A; lia|]. intros id I i Hi. apply (B id I). lia.
  - exists s, id. auto.
Qed.

Example shop_same_style : forall p1 r,
  perform demo_env None shop_again shop_prog = (p1, r) ->
  exists x, r = Created x /\ get_id (a_world (p_app p1)) x = Some (lit "stylist-style-0").
Proof.
  intros p1 r E.
  set (p0 := match prun shop_yew demo_env (prog_start demo_page) (firstn 1 shop) with Some p => p | None => prog_start demo_page end).
  set (q := fst (perform demo_env None (SNew (CText (lit "color: red;"))) p0)).
  assert (H0 : prun shop_yew demo_env (prog_start demo_page) (firstn 1 shop) = Some p0) by (vm_compute; reflexivity).
  assert (U0 : user_call (p_app p0) (SNew (CText (lit "color: red;"))) = true) by (vm_compute; reflexivity).
  assert (E0 : perform demo_env None (SNew (CText (lit "color: red;"))) p0 = (q, Created 0)).
  { unfold q. assert (X : snd (perform demo_env None (SNew (CText (lit "color: red;"))) p0) = Created 0) by (vm_compute; reflexivity).
    destruct (perform demo_env None (SNew (CText (lit "color: red;"))) p0). cbn in *. now subst. }
  assert (H1 : prun shop_yew demo_env q (skipn 2 shop) = Some shop_prog) by (vm_compute; reflexivity).
  assert (U1 : user_call (p_app shop_prog) shop_again = true) by (vm_compute; reflexivity).
  assert (P1 : p1 = fst (perform demo_env None shop_again shop_prog)) by now rewrite E.
  assert (M0 : call_manager_is p0 q (SNew (CText (lit "color: red;"))) 1) by (exists 1; vm_compute; split; reflexivity).
  assert (M1 : call_manager_is shop_prog p1 shop_again 1) by (exists 1; rewrite P1; vm_compute; split; reflexivity).
  set (m := match nth_error (w_mgrs (a_world (p_app q))) 1 with Some m => m | None => mk_mgr [] None true None [] 0 end).
  assert (Hm : nth_error (w_mgrs (a_world (p_app q))) 1 = Some m) by (vm_compute; reflexivity).
  set (m' := match nth_error (w_mgrs (a_world (p_app (fst (perform demo_env None shop_again shop_prog))))) 1 with Some m => m | None => mk_mgr [] None true None [] 0 end).
  assert (Hm' : nth_error (w_mgrs (a_world (p_app p1))) 1 = Some m') by (rewrite P1; vm_compute; reflexivity).
  destruct (same_css_same_style shop_yew demo_env demo_page (firstn 1 shop) p0 None (SNew (CText (lit "color: red;"))) q 0
              (skipn 2 shop) shop_prog None shop_again p1 r (PropsManager.demo_sheet "red") 1 m m'
              H0 U0 E0 H1 eq_refl U1 E) as (x & X1 & X2 & _); auto.
  - intros _. left. vm_compute. discriminate.
  - exists 1. vm_compute. reflexivity.
  - exists x. split; [exact X1|]. rewrite X2. vm_compute. reflexivity.
Qed.

(** A manager that is handed over is dropped even if the text is not CSS; it was the last
    handle, so its style goes from the document. *)
Example shop_gives_back : exists p p1,
  prun shop_yew demo_env (prog_start demo_page)
    [PApp (AOp (OBuild (lit "shop") (Some 1) true false)); PApp (AOp (OCloneManager 0));
     PCall None (SNewWith (CText (lit "color: red;")) 1); PApp (AOp (ODropStyle 0))] = Some p
  /\ perform demo_env None (GNewWith (CText (lit "}")) 0) p = (p1, ParseError)
  /\ user_call (p_app p) (GNewWith (CText (lit "}")) 0) = true
  /\ w_mhandles (a_world (p_app p)) = [Some 0; None; None]
  /\ w_mhandles (a_world (p_app p1)) = [None; None; None]
  /\ (exists t, texts_of (lit "shop-style-0") (w_dom (a_world (p_app p))) = [t])
  /\ texts_of (lit "shop-style-0") (w_dom (a_world (p_app p1))) = [].
Proof. vm_compute. eexists. eexists. repeat split. eexists. reflexivity. Qed.

(** A container that takes no elements (a text node, say): an error comes back. *)
Example shop_refused : exists p p1,
  let page := demo_page ++ [mk_container true false []] in
  prun shop_yew demo_env (prog_start page) [PApp (AOp (OBuild (lit "shop") (Some 2) true false))] = Some p
  /\ user_call (p_app p) (SNewWith (CText (lit "color: red;")) 0) = true
  /\ perform demo_env None (SNewWith (CText (lit "color: red;")) 0) p = (p1, WebError)
  /\ (forall s m, rereads demo_env (wanted (SNewWith (CText (lit "color: red;")) 0) m s)).
Proof. eexists. eexists. split; [vm_compute; reflexivity|]. split; [reflexivity|]. split; [vm_compute; reflexivity|]. intros s m. discriminate. Qed.

(** A source that brings a manager of its own, handed to a constructor with another one: the style is created in the
    manager of the constructor, and both managers that were handed over are given back. *)
Definition shop_source : call := SNewWith (CSource (mk_source (demo_sheet "red") (Some 1) None)) 0.
Example shop_two_managers : exists p p1 h,
  prun shop_yew demo_env (prog_start demo_page)
    [PApp (AOp (OBuild (lit "shop") (Some 1) true false)); PApp (AOp (OBuild (lit "cart") (Some 1) true false))] = Some p
  /\ user_call (p_app p) shop_source = true
  /\ user_call (p_app p) (SNewWith (CSource (mk_source (demo_sheet "red") (Some 0) None)) 0) = false
  /\ perform demo_env None shop_source p = (p1, Created h)
  /\ get_id (a_world (p_app p1)) h = Some (lit "shop-style-0")
  /\ firstn 2 (w_mhandles (a_world (p_app p1))) = [None; None].
Proof. eexists _, _, _. split; [vm_compute; reflexivity|]. repeat split; vm_compute; reflexivity. Qed.
