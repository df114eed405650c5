(** * HookTame: what components do leaves the other managers' handles, and the styles they have
    no business with, alone. *)

From Coq Require Import String Ascii List NArith Bool Arith Lia Permutation.
From Verif Require Import Str StrFacts Ast Render CssParser Ids IdFacts Manager SpecManager
  ManagerFacts ManagerInv ManagerSteps ManagerCore ManagerProps Hydrate Hooks SpecHooks HookFacts HookOnly.
Import ListNotations.
Local Open Scope list_scope.
Local Opaque parse to_style_str.

(** ** Handles of managers *)

Definition passes (l l' : list (option nat)) : Prop :=
  List.length l <= List.length l'
  /\ forall h, h < List.length l -> nth_error l' h = nth_error l h \/ nth_error l' h = Some None.
Lemma passes_refl l : passes l l. Proof. split; auto. Qed.
Lemma passes_trans a b c : passes a b -> passes b c -> passes a c.
Proof.
  intros [A1 A2] [B1 B2]. split; [lia|]. intros h H. destruct (B2 h) as [E|E]; [lia| |auto].
  destruct (A2 h H) as [E'|E']; rewrite E, E'; auto.
Qed.
Lemma passes_step e w o : passes (w_mhandles w) (w_mhandles (fst (step e w o))).
Proof.
  destruct (step_mhandles e w o) as [->|[(c & ->)|(h & _ & ->)]]; [apply passes_refl| |].
  - split; [rewrite app_length; lia|]. intros h H. left. now apply nth_error_app1.
  - split; [now rewrite upd_length|]. intros i H. rewrite nth_upd. destruct (Nat.eqb_spec h i) as [->|]; auto.
    destruct (nth_error (w_mhandles w) i) eqn:E; auto.
Qed.
Lemma passes_same l l' h mi mi' :
  passes l l' -> handle_of l h = Some mi -> handle_of l' h = Some mi' -> mi' = mi.
Proof.
  intros [_ P] H H'. pose proof (handle_lt _ _ _ H) as L. unfold handle_of in *.
  destruct (P h L) as [E|E]; rewrite E in H'; [|discriminate]. congruence.
Qed.

(** ** Managers, dead or alive *)

Definition mdead (w : world) (mi : nat) : Prop :=
  mi < List.length (w_mgrs w) /\ forall h, handle_of (w_mhandles w) h <> Some mi.

Lemma mlive_or_dead w mi : mi < List.length (w_mgrs w) -> mlive w mi \/ mdead w mi.
Proof.
  intros L. assert (D : forall a b : option nat, {a = b} + {a <> b}) by (decide equality; apply Nat.eq_dec).
  destruct (in_dec D (Some mi) (w_mhandles w)) as [I|N].
  - left. apply In_nth_error in I. destruct I as [h H]. exists h. unfold handle_of. now rewrite H.
  - right. split; auto. intros h H. unfold handle_of in H. destruct (nth_error (w_mhandles w) h) as [[x|]|] eqn:E; try discriminate.
    injection H as ->. apply N. eapply nth_error_In; eauto.
Qed.

Lemma step_mgrs_length e w o : List.length (w_mgrs w) <= List.length (w_mgrs (fst (step e w o))).
Proof.
  destruct (le_lt_dec (List.length (w_mgrs w)) (List.length (w_mgrs (fst (step e w o))))) as [L|L]; auto.
  destruct (nth_error (w_mgrs w) (List.length (w_mgrs (fst (step e w o))))) as [m|] eqn:E; [|apply nth_error_None in E; lia].
  destruct (step_like e w o _ _ E) as (m' & E' & _). apply nth_lt in E'. lia.
Qed.

(** A new handle is on a manager that has one, or on a new one. *)
Lemma step_new_handle e w o c :
  w_mhandles (fst (step e w o)) = w_mhandles w ++ [Some c] -> mlive w c \/ List.length (w_mgrs w) <= c.
Proof.
  assert (Z : forall (l : list (option nat)) c, l = l ++ [Some c] -> False).
  { intros l c0 H. apply (f_equal (@List.length _)) in H. rewrite app_length in H. cbn in H. lia. }
  intros H. destruct o; cbn [step] in H.
  - right. unfold build in H. destruct (e_wasm e); [destruct cont; [|destruct (e_document e); [destruct (e_head e)|]]|];
      cbn in H; try (apply Z in H; contradiction); apply app_inj_tail in H; destruct H as [_ H]; injection H as <-; auto.
  - left. unfold clone_manager in H. destruct (handle_of (w_mhandles w) h) as [mi|] eqn:E; [|apply Z in H; contradiction].
    cbn in H. apply app_inj_tail in H. destruct H as [_ H]. injection H as <-. now exists h.
  - exfalso. destruct (step_mhandles e w (ODropManager h)) as [E|[(c' & E)|(h' & _ & E)]]; cbn [step] in E.
    + rewrite E in H. now apply Z in H.
    + apply (f_equal (@List.length _)) in E. rewrite app_length in E. cbn in E. unfold drop_manager in E.
      destruct (handle_of (w_mhandles w) h); [|cbn in E; lia]. destruct (nth_error (w_mgrs w) n) as [m|]; [|cbn in E; lia].
      cbv zeta in E. destruct (Nat.eqb _ _); cbn [fst] in E.
      * match type of E with context [release_all e ?l ?x] => destruct (release_all_frame e l x) as (_ & _ & _ & F & _) end.
        first [rewrite F in E|idtac]. cbn in E. rewrite ?upd_length in E. lia.
      * cbn in E. rewrite ?upd_length in E. lia.
    + rewrite E in H. apply (f_equal (@List.length _)) in H. rewrite app_length, upd_length in H. cbn in H. lia.
  - exfalso. destruct (handle_of (w_mhandles w) h) as [mj|]; [|now apply Z in H].
    unfold get_or_register in H. destruct (nth_error (w_mgrs w) mj) as [m|]; [|now apply Z in H].
    destruct (reg_get (m_reg m) k) as [cid|]; [now apply Z in H|].
    cbv zeta in H. destruct (e_debug e && _); [now apply Z in H|].
    destruct (m_data m) as [ld|]; [now apply Z in H|]. destruct (mount _ _ _ _ _); now apply Z in H.
  - exfalso. unfold clone_style in H. destruct (handle_of (w_handles w) h); now apply Z in H.
  - exfalso. unfold drop_style in H. destruct (handle_of (w_handles w) h); [|now apply Z in H]. cbn [fst] in H.
    match type of H with context [release e ?l ?x] => destruct (release_frame e l x) as (_ & _ & _ & F & _) end.
    rewrite F in H. now apply Z in H.
  - exfalso. destruct (step_mhandles e w (OUnregister h)) as [E|[(c' & E)|(h' & E & _)]]; [| |discriminate].
    + cbn [step] in E. rewrite E in H. now apply Z in H.
    + assert (F : w_mhandles (fst (step e w (OUnregister h))) = w_mhandles w).
      { cbn [step]. unfold unregister_style. destruct (handle_of (w_handles w) h) as [n|]; [|auto].
        destruct (nth_error (w_contents w) n) as [x|]; [|auto]. destruct (nth_error (w_mgrs w) (c_mgr x)) as [m|]; [|auto].
        destruct (Nat.eqb _ _); [auto|]. destruct (reg_remove _ _) as [r [q|]]; [|auto]. cbn [fst].
        match goal with |- context [release e ?l ?x] => destruct (release_frame e l x) as (_ & _ & _ & F & _) end. now rewrite F. }
      rewrite F in E. now apply Z in E.
  - exfalso. destruct (handle_of (w_mhandles w) h) as [mj|]; [|now apply Z in H].
    destruct (load_data mj d w) as [w1 b] eqn:L. destruct (load_data_handles mj d w) as [_ F]. rewrite L in F. cbn [fst] in F.
    destruct b; cbn [fst] in H; rewrite F in H; now apply Z in H.
  - exfalso. destruct (handle_of (w_mhandles w) h); now apply Z in H.
  - exfalso. now apply Z in H.
  - exfalso. now apply Z in H.
Qed.

Lemma mdead_step e w o mi : mdead w mi -> mdead (fst (step e w o)) mi.
Proof.
  intros [L N]. pose proof (step_mgrs_length e w o) as LL. split; [lia|]. intros h H.
  destruct (step_mhandles e w o) as [E|[(c & E)|(h' & _ & E)]].
  - rewrite E in H. now apply (N h).
  - pose proof (step_new_handle e w o c E) as K. rewrite E in H. unfold handle_of in H.
    destruct (nth_error (w_mhandles w ++ [Some c]) h) as [[v|]|] eqn:En; try discriminate. injection H as ->.
    apply nth_app_inv in En. destruct En as [En|[_ Ev]].
    + apply (N h). unfold handle_of. now rewrite En.
    + injection Ev as <-. destruct K as [[h1 K]|K]; [now apply (N h1)|lia].
  - rewrite E in H. unfold handle_of in H. rewrite nth_upd in H. destruct (Nat.eqb h' h); [|now apply (N h)].
    destruct (nth_error (w_mhandles w) h); discriminate.
Qed.


Definition cored (e : env) (w : world) : Prop := exists ids, core e ids [] w.
Lemma cored_step e w o : cored e w -> cored e (fst (step e w o)).
Proof.
  intros [ids C]. exists (ids ++ loaded_ids [o]). apply core_step.
  - eapply core_mono; [|exact C]. apply incl_appl, incl_refl.
  - intros id I. apply in_app_iff. now right.
Qed.
Lemma mlive_strong e w mi : cored e w -> mlive w mi -> mstrong_of (w_mgrs w) mi >= 1.
Proof.
  intros [ids C] [h H]. rewrite (o_mcounted _ _ _ _ C). unfold handle_of in H.
  destruct (nth_error (w_mhandles w) h) as [[x|]|] eqn:E; try discriminate. injection H as ->.
  apply nth_error_In in E. apply cnt_pos. unfold live. apply in_flat_map. exists (Some mi). split; auto. now left.
Qed.
Lemma registered_lt w mi k cid : registered w mi k cid -> mi < List.length (w_mgrs w).
Proof. intros (m & H & _). now apply nth_lt in H. Qed.


Ltac tm := let h := fresh in let H := fresh in intros h H; discriminate H.

(** ** Steps that unregister only styles that [T] allows, by manager and key *)

Section Tame.
Variable T : nat -> key -> Prop.

Definition tame (w : world) (o : op) : Prop :=
  forall h, o = OUnregister h ->
  exists cid c, handle_of (w_handles w) h = Some cid /\ nth_error (w_contents w) cid = Some c
                /\ T (c_mgr c) (c_key c).
Inductive stepsT (e : env) : world -> world -> Prop :=
| steps_refl w : stepsT e w w
| steps_more w o w' : tame w o -> stepsT e (fst (step e w o)) w' -> stepsT e w w'.
Local Notation steps := stepsT.

Lemma steps_one e w o : tame w o -> steps e w (fst (step e w o)).
Proof. intros Tm. eapply steps_more; [exact Tm|apply steps_refl]. Qed.
Lemma steps_trans e w w1 w2 : steps e w w1 -> steps e w1 w2 -> steps e w w2.
Proof. intros H. induction H; auto. intros K. eapply steps_more; eauto. Qed.
Lemma steps_res e w o w' r : tame w o -> step e w o = (w', r) -> steps e w w'.
Proof. intros Tm S. replace w' with (fst (step e w o)) by now rewrite S. now apply steps_one. Qed.

Lemma passes_steps e w w' : steps e w w' -> passes (w_mhandles w) (w_mhandles w').
Proof. induction 1; [apply passes_refl|]. eapply passes_trans; [apply passes_step|eauto]. Qed.
Lemma mdead_steps e w w' mi : steps e w w' -> mdead w mi -> mdead w' mi.
Proof. induction 1; auto. intros D. now apply IHstepsT, mdead_step. Qed.
Lemma mlive_steps e w w' mi : steps e w w' -> mi < List.length (w_mgrs w) -> mlive w' mi -> mlive w mi.
Proof.
  intros S L [h H]. destruct (mlive_or_dead w mi L) as [K|K]; auto. apply (mdead_steps _ _ _ _ S) in K.
  destruct K as [_ K]. now elim (K h).
Qed.

(** ** Registered styles stay while the manager lives *)

Lemma keep_step e w o mi k cid :
  cored e w -> tame w o -> ~ T mi k -> registered w mi k cid ->
  registered (fst (step e w o)) mi k cid \/ mdead (fst (step e w o)) mi.
Proof.
  intros C Tm K R. pose proof (registered_lt _ _ _ _ R) as L. pose proof (step_mgrs_length e w o) as LL.
  destruct (mlive_or_dead (fst (step e w o)) mi) as [Lv|D]; [lia|left|now right].
  destruct (is_unregister o) eqn:U.
  - destruct o; try discriminate. destruct (Tm h eq_refl) as (x & c & H & Hc & G). destruct C as [ids C].
    destruct (unregister_frame _ _ _ _ _ _ C H Hc) as (_ & _ & F). apply F; auto.
    destruct (key_eq_dec k (c_key c)) as [->|N]; [|now left]. right. intros ->. contradiction.
  - apply step_registered; auto; [intros h ->; discriminate|]. eapply mlive_strong; eauto. now apply cored_step.
Qed.
Lemma keep_steps e w w' mi k cid :
  steps e w w' -> cored e w -> ~ T mi k -> registered w mi k cid -> registered w' mi k cid \/ mdead w' mi.
Proof.
  induction 1 as [|w o w' Tm S IH]; auto. intros C K R.
  destruct (keep_step _ _ _ _ _ _ C Tm K R) as [R'|D]; [|right; eapply mdead_steps; eauto].
  apply IH; auto. now apply cored_step.
Qed.
Lemma steps_contents e w w' cid c :
  steps e w w' -> nth_error (w_contents w) cid = Some c ->
  exists d, nth_error (w_contents w') cid = Some d /\ base d = base c.
Proof.
  intros S. revert c. induction S as [|w o w' Tm S IH]; eauto. intros c H.
  destruct (step_contents e w o cid c H) as (d & Hd & B). destruct (IH _ Hd) as (d' & Hd' & B'). exists d'. split; auto. congruence.
Qed.
Lemma steps_like e w w' mi m :
  steps e w w' -> nth_error (w_mgrs w) mi = Some m -> exists m', nth_error (w_mgrs w') mi = Some m' /\ like m m'.
Proof.
  intros S. revert m. induction S as [|w o w' Tm S IH]; [intros m H; exists m; auto using like_refl|]. intros m H.
  destruct (step_like e w o mi m H) as (d & Hd & B). destruct (IH _ Hd) as (d' & Hd' & B'). exists d'. split; auto.
  eapply like_trans; eauto.
Qed.

(** ** What components do is made of such steps *)

Lemma steps_default e a a1 h : default_manager e a = Some (a1, h) ->
  steps e (a_world a) (a_world a1)
  /\ (forall d, a_default a = Some d -> a_default a1 = Some d)
  /\ exists d mi, a_default a1 = Some d /\ handle_of (w_mhandles (a_world a1)) d = Some mi
       /\ handle_of (w_mhandles (a_world a1)) h = Some mi.
Proof.
  unfold default_manager. destruct (a_default a) as [d|] eqn:Ed.
  - destruct (step e (a_world a) (OCloneManager d)) as [w [h'| | | | |]] eqn:S; try discriminate. intros H. injection H as <- <-.
    destruct (clone_result _ _ _ _ _ S) as (E & mi & H1 & H2). split; [|split]; auto.
    + cbn. eapply steps_res; [|exact S]. tm.
    + cbn. now intros d' E'; injection E' as <-.
    + exists d, mi. cbn. split; auto. split; auto. replace w with (fst (step e (a_world a) (OCloneManager d))) by now rewrite S.
      apply step_mhandle_kept; auto. discriminate.
  - destruct (step e (a_world a) (OBuild _ None true false)) as [w [h0| | | | |]] eqn:S0; try discriminate.
    destruct (step e w (OCloneManager h0)) as [w1 [h'| | | | |]] eqn:S1; try discriminate. intros H. injection H as <- <-.
    destruct (clone_result _ _ _ _ _ S1) as (E & mi & H1 & H2). split; [|split]; try discriminate.
    + cbn. eapply steps_trans; eapply steps_res; [|exact S0| |exact S1]; tm.
    + exists h0, mi. cbn. split; auto. split; auto. replace w1 with (fst (step e w (OCloneManager h0))) by now rewrite S1.
      apply step_mhandle_kept; auto. discriminate.
Qed.

Lemma steps_context e ctx a a1 h : context_manager e ctx a = Some (a1, h) ->
  steps e (a_world a) (a_world a1)
  /\ (forall d, a_default a = Some d -> a_default a1 = Some d)
  /\ exists mi, context_is a a1 ctx mi /\ handle_of (w_mhandles (a_world a1)) h = Some mi.
Proof.
  destruct ctx as [d|]; cbn [context_manager context_is].
  - destruct (step e (a_world a) (OCloneManager d)) as [w [h'| | | | |]] eqn:S; try discriminate. intros H. injection H as <- <-.
    destruct (clone_result _ _ _ _ _ S) as (E & mi & H1 & H2). split; [|split]; auto.
    + cbn. eapply steps_res; [|exact S]. tm.
    + exists mi. cbn. auto.
  - intros H. destruct (steps_default _ _ _ _ H) as (A & B & d & mi & C & D & F). split; auto. split; auto. exists mi. split; eauto.
Qed.

Lemma steps_drop_source e src w : steps e w (drop_source e src w).
Proof. unfold drop_source. destruct (s_manager src); [|apply steps_refl]. apply steps_one. tm. Qed.
Lemma steps_drop_deps e g w : steps e w (drop_deps e g w).
Proof. unfold drop_deps. eapply steps_trans; [|apply steps_drop_source]. apply steps_one. tm. Qed.

(** The style of a guard is one that may be unregistered. *)
Definition fits (w : world) (g : guard) : Prop :=
  exists mi m, handle_of (w_mhandles w) (g_manager g) = Some mi /\ nth_error (w_mgrs w) mi = Some m
    /\ T mi (global_key m (s_sheet (g_source g))).
Lemma fits_steps e w w' g : steps e w w' -> guard_ok w' g -> fits w g -> fits w' g.
Proof.
  intros S (mi' & m' & _ & _ & H1 & H2 & _) (mi & m & F1 & F2 & F3).
  pose proof (passes_same _ _ _ _ _ (passes_steps _ _ _ S) F1 H1) as ->. exists mi, m'. split; auto. split; auto.
  destruct (steps_like _ _ _ _ _ S F2) as (m2 & Hm2 & (L & _)). rewrite H2 in Hm2. injection Hm2 as <-.
  unfold global_key in *. now rewrite L.
Qed.
Lemma guard_tame w g : guard_ok w g -> fits w g -> tame w (OUnregister (g_style g)).
Proof.
  intros (mi & m & cid & c & A1 & A2 & H1 & H2 & H3 & H4) (mi' & m' & F1 & F2 & F3) h E. injection E as <-. exists cid, c.
  rewrite A1 in F1. injection F1 as <-. rewrite A2 in F2. injection F2 as <-. rewrite H3, H4. auto.
Qed.
Lemma steps_drop_value e g w : tame w (OUnregister (g_style g)) -> steps e w (drop_value e g w).
Proof. intros Tm. unfold drop_value. eapply steps_more; [exact Tm|]. apply steps_one. tm. Qed.
Lemma drop_deps_tame e g w : tame w (OUnregister (g_style g)) -> tame (drop_deps e g w) (OUnregister (g_style g)).
Proof.
  intros Tm h E. injection E as <-. destruct (Tm _ eq_refl) as (cid & c & H1 & H2 & H3).
  destruct (steps_contents _ _ _ _ _ (steps_drop_deps e g w) H2) as (d & Hd & B). exists cid, d. split; [|split; auto].
  - unfold drop_deps, drop_source. destruct (s_manager (g_source g)); rewrite !(proj1 (manages_frame e _ (ODropManager _) eq_refl)); exact H1.
  - apply base_fields in B. destruct B as (_ & B & _ & B' & _). now rewrite B, B'.
Qed.
Lemma steps_drop_guard y e g w : guard_ok w g -> fits w g -> steps e w (drop_guard y e g w).
Proof.
  intros G F. apply guard_tame in G; auto. unfold drop_guard. destruct (y_key_first y).
  - eapply steps_trans; [apply steps_drop_deps|]. apply steps_drop_value. now apply drop_deps_tame.
  - eapply steps_trans; [apply steps_drop_value; exact G|]. apply steps_drop_deps.
Qed.
Lemma steps_new_guard e h src w w' g : new_guard e h src w = Some (w', g) -> steps e w w'.
Proof.
  unfold new_guard. destruct (manager_of w h) as [m|]; [|discriminate].
  destruct (step e w (OCreate h (global_key m (s_sheet src)))) as [w1 [x| | | | |]] eqn:S; try discriminate.
  intros H. injection H as <- <-. eapply steps_res; [|exact S]. tm.
Qed.

Lemma steps_memo y e page ids old h src w gs extra w' g mi :
  good e page ids w (olds old ++ gs) (h :: source_handles src ++ extra) -> memo y e old h src w = Some (w', g) ->
  handle_of (w_mhandles w) h = Some mi ->
  (forall g0, old = Some g0 -> fits w g0 \/ g = g0) ->
  steps e w w' /\ handle_of (w_mhandles w') (g_manager g) = Some mi /\ s_sheet (g_source g) = s_sheet src.
Proof.
  intros G H Hh Fi. pose proof (good_memo y e page ids _ _ _ _ _ _ _ _ G H) as G'.
  assert (Lv : exists mi', handle_of (w_mhandles w') (g_manager g) = Some mi').
  { pose proof (gd_guards _ _ _ _ _ _ G') as F. inversion F as [|? ? (mi' & _ & _ & _ & F' & _)]; subst. eauto. }
  destruct Lv as [mi' Lv]. unfold memo in H.
  assert (NG : forall w0 w1 g1, new_guard e h src w0 = Some (w1, g1) -> g_manager g1 = h /\ g_source g1 = src).
  { intros w0 w1 g1. unfold new_guard. destruct (manager_of w0 h) as [m|]; [|discriminate].
    destruct (step e w0 _) as [w2 [x| | | | |]]; try discriminate. intros E. injection E as _ <-. auto. }
  assert (Fin : steps e w w' -> g_manager g = h -> g_source g = src ->
     steps e w w' /\ handle_of (w_mhandles w') (g_manager g) = Some mi /\ s_sheet (g_source g) = s_sheet src).
  { intros S E1 E2. rewrite E1 in *. rewrite E2. repeat split; auto. rewrite Lv. f_equal.
    eapply passes_same; [now apply (passes_steps e w w')|exact Hh|exact Lv]. }
  destruct old as [g0|]; cbn [olds List.app] in *.
  - destruct (same_manager _ _ _ && source_eqb _ _ _) eqn:Q.
    + injection H as <- <-. assert (S : steps e w (drop_source e src (fst (step e w (ODropManager h))))).
      { eapply steps_trans; [|apply steps_drop_source]. apply steps_one. tm. }
      split; auto. apply andb_prop in Q. destruct Q as [Q1 Q2]. unfold same_manager in Q1. rewrite Hh in Q1.
      destruct (handle_of (w_mhandles w) (g_manager g0)) as [mj|] eqn:Hg; [|discriminate]. apply Nat.eqb_eq in Q1. subst mj.
      split; [rewrite Lv; f_equal; eapply passes_same; [eapply passes_steps, S|exact Hg|exact Lv]|].
      unfold source_eqb in Q2. apply andb_prop in Q2. destruct Q2 as [Q2 _]. apply andb_prop in Q2. destruct Q2 as [Q2 _].
      now apply sheet_eqb_eq.
    + pose proof (gd_guards _ _ _ _ _ _ G) as GG. inversion GG as [|? ? G0 _]; subst.
      assert (Ne : forall w0 w1, new_guard e h src w0 = Some (w1, g) -> fits w g0).
      { intros w0 w1 Q0. destruct (NG _ _ _ Q0) as [E1 _]. destruct (Fi _ eq_refl) as [?|E]; auto. exfalso.
        pose proof (gd_owned _ _ _ _ _ _ G) as O. cbn [List.app] in O. inversion O as [|? ? O1 _]; subst. apply O1.
        rewrite !in_app_iff. right. cbn [owned flat_map]. left. reflexivity. }
      destruct (y_drop_first y).
      * destruct (NG _ _ _ H) as [E1 E2]. apply Fin; auto. eapply steps_trans; [apply (steps_drop_guard y); [exact G0|eapply Ne; eauto]|]. eapply steps_new_guard; eauto.
      * destruct (new_guard e h src w) as [[w1 g1]|] eqn:E; [|discriminate]. injection H as <- <-.
        destruct (NG _ _ _ E) as [E1 E2]. apply Fin; auto. eapply steps_trans; [eapply steps_new_guard; eauto|].
        assert (Ok : guard_ok w1 g0).
        { pose proof (good_new_guard e page ids _ _ _ _ _ _ _ G E) as [G1 _].
          pose proof (gd_guards _ _ _ _ _ _ G1) as GE. inversion GE; subst. now inversion H2. }
        apply steps_drop_guard; auto. eapply fits_steps; [eapply steps_new_guard; eauto|auto|]. eapply Ne; eauto.
  - destruct (NG _ _ _ H) as [E1 E2]. apply Fin; auto. eapply steps_new_guard; eauto.
Qed.

Lemma steps_clone_source e src w w1 src1 : clone_source e src w = Some (w1, src1) -> steps e w w1.
Proof.
  unfold clone_source. destruct (s_manager src) as [d|]; [|intros E; injection E as <- <-; apply steps_refl].
  destruct (step e w (OCloneManager d)) as [w' [h'| | | | |]] eqn:S; try discriminate. intros H. injection H as <- <-.
  eapply steps_res; [|exact S]. tm.
Qed.

Lemma steps_render y e page ids old ctx src a a' g gs :
  app_good e page ids a -> Permutation (guards a) (olds old ++ gs) ->
  render_global y e old ctx src a = Some (a', g) ->
  (forall g0, old = Some g0 -> fits (a_world a) g0 \/ g = g0) ->
  steps e (a_world a) (a_world a') /\ (forall d, a_default a = Some d -> a_default a' = Some d)
  /\ s_sheet (g_source g) = s_sheet src
  /\ exists mi, context_is a a' ctx mi /\ handle_of (w_mhandles (a_world a')) (g_manager g) = Some mi.
Proof.
  intros G P H Fi. pose proof H as H0. unfold render_global in H. destruct (context_manager e ctx a) as [[a1 h]|] eqn:E; [|discriminate].
  destruct (good_context e page ids _ _ _ _ G E) as [G1 Eg]. destruct (steps_context _ _ _ _ _ E) as (S1 & D1 & mi & C & Hh).
  destruct (clone_source e src (a_world a1)) as [[w1 src1]|] eqn:Es; [|discriminate].
  destruct (good_clone_source e page ids _ _ _ _ _ _ G1 Es) as [G2 Esh]. pose proof (steps_clone_source _ _ _ _ _ Es) as S2.
  destruct (memo y e old h src1 w1) as [[w2 g1]|] eqn:Em; [|discriminate]. injection H as <- <-.
  assert (Hh1 : handle_of (w_mhandles w1) h = Some mi).
  { pose proof (gd_live _ _ _ _ _ _ G2) as L. rewrite Forall_forall in L. destruct (L h) as [mi' L'].
    - apply in_app_iff. left. apply in_app_iff. right. now left.
    - rewrite L'. f_equal. eapply passes_same; [eapply passes_steps; exact S2|exact Hh|exact L']. }
  assert (G3 : good e page ids w1 (olds old ++ gs) (h :: source_handles src1 ++ dflt a1)).
  { eapply good_perm; [| |exact G2].
    - unfold guards. rewrite Eg. exact P.
    - symmetry. apply Permutation_middle. }
  destruct (steps_memo _ _ _ _ _ _ _ _ _ _ _ _ _ G3 Em Hh1) as (S3 & Hg & Sh).
  { intros g0 ->. destruct (Fi _ eq_refl) as [F|F]; auto. left.
    eapply fits_steps; [eapply steps_trans; [exact S1|exact S2]| |exact F].
    pose proof (gd_guards _ _ _ _ _ _ G3) as Q. now inversion Q. }
  cbn [a_world with_world a_default]. split; [|split; [exact D1|split; [congruence|]]].
  - eapply steps_trans; [exact S1|]. eapply steps_trans; eauto.
  - exists mi. split; auto. destruct ctx as [d|]; [exact C|]. destruct C as (d & C1 & C2). exists d. cbn. split; auto.
    destruct (good_render y e page ids old None src a _ _ gs G P H0) as [G4 _].
    pose proof (gd_live _ _ _ _ _ _ G4) as L. rewrite Forall_forall in L. destruct (L d) as [mi' L'].
    + apply in_app_iff. left. unfold dflt. cbn [a_default with_world]. rewrite C1. now left.
    + cbn in L'. rewrite L'. f_equal. eapply passes_same; [|exact C2|exact L'].
      eapply passes_trans; eapply passes_steps; eauto.
Qed.

Lemma steps_classes e src a a' cl : into_classes e src a = Some (a', cl) ->
  steps e (a_world a) (a_world a') /\ (forall d, a_default a = Some d -> a_default a' = Some d).
Proof.
  intros H. unfold into_classes in H.
  assert (K : exists a1 h, match s_manager src with Some h => Some (a, h) | None => default_manager e a end = Some (a1, h)
            /\ steps e (a_world a) (a_world a1) /\ (forall d, a_default a = Some d -> a_default a1 = Some d)).
  { destruct (s_manager src) as [h|]; [exists a, h; split; auto; split; auto; apply steps_refl|].
    destruct (default_manager e a) as [[a1 h]|] eqn:D; [|discriminate]. exists a1, h. split; auto.
    destruct (steps_default _ _ _ _ D) as (S1 & D1 & _). auto. }
  destruct K as (a1 & h & E & S1 & D1). rewrite E in H. clear E. unfold new_style in H.
  destruct (manager_of (a_world a1) h) as [m|]; [|discriminate].
  destruct (step e (a_world a1) (OCreate h (style_key (m_prefix m) (s_sheet src)))) as [w2 [x| | | | |]] eqn:S; try discriminate.
  cbv zeta in H. destruct (get_id (fst (step e w2 (ODropManager h))) x) as [i|]; [|discriminate]. injection H as <- <-.
  split; [|exact D1]. eapply steps_trans; [exact S1|]. eapply steps_trans; [eapply steps_res; [|exact S]; tm|].
  cbn [a_world with_world]. eapply steps_trans; [apply (steps_one e w2 (ODropManager h)); tm|].
  apply (steps_one e _ (ODropStyle x)). tm.
Qed.
Lemma steps_use_style e ctx src a a' x : use_style e ctx src a = Some (a', x) ->
  steps e (a_world a) (a_world a') /\ (forall d, a_default a = Some d -> a_default a' = Some d).
Proof.
  intros H. unfold use_style in H. destruct (context_manager e ctx a) as [[a1 h]|] eqn:E; [|discriminate].
  destruct (steps_context _ _ _ _ _ E) as (S1 & D1 & _).
  destruct (new_style e h (s_sheet src) (drop_source e src (a_world a1))) as [w2 [z| | | | |]] eqn:S; try discriminate.
  injection H as <- <-. split; [|exact D1]. eapply steps_trans; [exact S1|]. eapply steps_trans; [apply (steps_drop_source e src)|].
  unfold new_style in S. destruct (manager_of _ h); [|discriminate].
  eapply steps_trans; [eapply steps_res; [|exact S]; tm|]. cbn [a_world with_world]. apply (steps_one e w2 (ODropManager h)). tm.
Qed.

(** The step leaves the [Global]s alone that [T] does not allow to go. *)
Definition astep_fits (a : app) (o : aop) (a' : app) : Prop :=
  match o with
  | AUnmount i => forall g, nth_error (a_globals a) i = Some (Some g) -> fits (a_world a) g
  | ARender i _ _ =>
      forall g, nth_error (a_globals a) i = Some (Some g) ->
      fits (a_world a) g \/ nth_error (a_globals a') i = nth_error (a_globals a) i
  | _ => True
  end.
Lemma steps_astep y e page ids a o a' :
  app_good e page ids a -> astep y e a o = Some a' -> unregisters o = false -> astep_fits a o a' ->
  steps e (a_world a) (a_world a') /\ (forall d, a_default a = Some d -> a_default a' = Some d).
Proof.
  intros G H U Fi. destruct o as [o|ctx src|i ctx src|i|src|ctx src]; cbn [astep] in H.
  - destruct (free _ (op_style o) && free _ (op_mhandle o)) eqn:F; [|discriminate].
    assert (S : steps e (a_world a) (fst (step e (a_world a) o))) by (apply steps_one; intros h ->; discriminate).
    destruct (step e (a_world a) o) as [w [ | | | | | ]]; try discriminate; injection H as <-; split; auto.
  - destruct (render_global y e None ctx src a) as [[a1 g]|] eqn:R; [|discriminate]. injection H as <-.
    destruct (steps_render y e page ids None ctx src a a1 g (guards a) G (Permutation_refl _) R) as (S & D & _); [discriminate|auto].
  - destruct (nth_error (a_globals a) i) as [[g|]|] eqn:E; try discriminate.
    destruct (render_global y e (Some g) ctx src a) as [[a1 g1]|] eqn:R; [|discriminate]. injection H as <-.
    destruct (guards_upd _ _ _ (Some g1) E) as (gs & P1 & P2).
    destruct (steps_render y e page ids (Some g) ctx src a a1 g1 gs G P1 R) as (S & D & _); [|auto].
    intros g0 E0. injection E0 as <-. destruct (Fi _ E) as [F|F]; auto. right.
    destruct (good_render y e page ids (Some g) ctx src a a1 g1 gs G P1 R) as [_ Eg].
    cbn [a_globals with_globals] in F. rewrite Eg, nth_upd, Nat.eqb_refl, E in F. cbn in F. congruence.
  - destruct (nth_error (a_globals a) i) as [[g|]|] eqn:E; try discriminate. injection H as <-. split; auto.
    cbn [a_world with_globals with_world]. apply steps_drop_guard; [|now apply (Fi g)].
    destruct (guards_upd _ _ _ None E) as (gs & P1 & P2). pose proof (gd_guards _ _ _ _ _ _ G) as GG.
    rewrite Forall_forall in GG. apply GG. eapply Permutation_in; [symmetry; exact P1|now left].
  - destruct (user_source a src) eqn:Us; [|discriminate].
    destruct (into_classes e src a) as [[a1 cl]|] eqn:E; [|discriminate]. injection H as <-. cbn [fst]. eapply steps_classes; eauto.
  - destruct (user_source a src) eqn:Us; [|discriminate].
    destruct (use_style e ctx src a) as [[a1 x]|] eqn:E; [|discriminate]. injection H as <-. cbn [fst]. eapply steps_use_style; eauto.
Qed.
Fixpoint arun_fits (y : yew) (e : env) (a : app) (l : list aop) : Prop :=
  match l with
  | [] => True
  | o :: l' => unregisters o = false
               /\ match astep y e a o with
                  | Some a1 => astep_fits a o a1 /\ arun_fits y e a1 l'
                  | None => True
                  end
  end.
Lemma steps_arun y e page l : forall ids a a',
  app_good e page ids a -> arun y e a l = Some a' -> arun_fits y e a l ->
  steps e (a_world a) (a_world a') /\ (forall d, a_default a = Some d -> a_default a' = Some d).
Proof.
  induction l as [|o l IH]; intros ids a a' G H U; cbn [arun arun_fits] in H, U.
  - injection H as <-. split; [apply steps_refl|auto].
  - destruct (astep y e a o) as [a1|] eqn:S; [|discriminate]. destruct U as (U1 & U2 & U3).
    destruct (steps_astep _ _ _ _ _ _ _ G S U1 U2) as [A B]. apply (good_astep _ _ _ _ _ _ _ G) in S.
    destruct (IH _ _ _ S H U3) as [A' B']. split; [eapply steps_trans; eauto|auto].
Qed.

End Tame.
