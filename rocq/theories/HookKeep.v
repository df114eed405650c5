(** * HookKeep: what components do leaves scoped styles alone.  [HookTame] for the steps that
    unregister nothing but global styles. *)

From Coq Require Import String Ascii List NArith Bool Arith Lia Permutation.
From Verif Require Import Str StrFacts Ast Render CssParser Ids IdFacts Manager SpecManager
  ManagerFacts ManagerInv ManagerSteps ManagerCore ManagerProps Hydrate Hooks SpecHooks HookFacts HookOnly.
From Verif Require Export HookTame.
Import ListNotations.
Local Open Scope list_scope.
Local Opaque parse to_style_str.

Definition any_global (mi : nat) (k : key) : Prop := k_global k = true.
Notation steps := (stepsT any_global).

Definition steps_refl := HookTame.steps_refl any_global.
Definition steps_one := steps_one any_global.
Definition steps_trans := steps_trans any_global.
Definition steps_res := steps_res any_global.
Definition passes_steps := passes_steps any_global.
Definition mdead_steps := mdead_steps any_global.
Definition mlive_steps := mlive_steps any_global.
Definition steps_contents := steps_contents any_global.
Definition steps_like := steps_like any_global.
Definition steps_default := steps_default any_global.
Definition steps_context := steps_context any_global.
Definition steps_drop_source := steps_drop_source any_global.
Definition steps_drop_deps := steps_drop_deps any_global.
Definition steps_new_guard := steps_new_guard any_global.
Definition steps_clone_source := steps_clone_source any_global.
Definition steps_classes := steps_classes any_global.
Definition steps_use_style := steps_use_style any_global.

Lemma keep_step e w o mi k cid :
  cored e w -> tame any_global w o -> k_global k = false -> registered w mi k cid ->
  registered (fst (step e w o)) mi k cid \/ mdead (fst (step e w o)) mi.
Proof. intros C Tm K R. apply (HookTame.keep_step any_global); auto. unfold any_global. congruence. Qed.
Lemma keep_steps e w w' mi k cid :
  steps e w w' -> cored e w -> k_global k = false -> registered w mi k cid -> registered w' mi k cid \/ mdead w' mi.
Proof. intros S C K R. apply (HookTame.keep_steps any_global e w); auto. unfold any_global. congruence. Qed.

Lemma fits_any w g : guard_ok w g -> fits any_global w g.
Proof. intros (mi & m & _ & _ & H1 & H2 & _). exists mi, m. now repeat split. Qed.
Lemma steps_drop_guard y e g w : guard_ok w g -> steps e w (drop_guard y e g w).
Proof. intros G. apply HookTame.steps_drop_guard; auto. now apply fits_any. Qed.
Lemma steps_render y e page ids old ctx src a a' g gs :
  app_good e page ids a -> Permutation (guards a) (olds old ++ gs) ->
  render_global y e old ctx src a = Some (a', g) ->
  steps e (a_world a) (a_world a') /\ (forall d, a_default a = Some d -> a_default a' = Some d)
  /\ s_sheet (g_source g) = s_sheet src
  /\ exists mi, context_is a a' ctx mi /\ handle_of (w_mhandles (a_world a')) (g_manager g) = Some mi.
Proof.
  intros G P R. eapply (HookTame.steps_render any_global); eauto. intros g0 ->. left. apply fits_any.
  pose proof (gd_guards _ _ _ _ _ _ G) as F. rewrite Forall_forall in F. apply F.
  eapply Permutation_in; [symmetry; exact P|now left].
Qed.
Lemma astep_fits_any e page ids a o a' : app_good e page ids a -> astep_fits any_global a o a'.
Proof.
  intros G. assert (K : forall i g, nth_error (a_globals a) i = Some (Some g) -> fits any_global (a_world a) g).
  { intros i g H. apply fits_any. pose proof (gd_guards _ _ _ _ _ _ G) as F. rewrite Forall_forall in F. apply F.
    apply nth_error_In in H. apply in_flat_map. exists (Some g). split; auto. now left. }
  destruct o; cbn; eauto.
Qed.
Lemma steps_astep y e page ids a o a' :
  app_good e page ids a -> astep y e a o = Some a' -> unregisters o = false ->
  steps e (a_world a) (a_world a') /\ (forall d, a_default a = Some d -> a_default a' = Some d).
Proof. intros G H U. eapply (HookTame.steps_astep any_global); eauto. eapply astep_fits_any; eauto. Qed.
Lemma arun_fits_any y e page l : forall ids a,
  app_good e page ids a -> existsb unregisters l = false -> arun_fits any_global y e a l.
Proof.
  induction l as [|o l IH]; intros ids a G U; cbn [arun_fits]; auto. cbn in U. apply orb_false_elim in U. destruct U as [U1 U2].
  split; auto. destruct (astep y e a o) as [a1|] eqn:S; auto. split; [eapply astep_fits_any; eauto|].
  eapply IH; eauto. eapply good_astep; eauto.
Qed.
Lemma steps_arun y e page l : forall ids a a',
  app_good e page ids a -> arun y e a l = Some a' -> existsb unregisters l = false ->
  steps e (a_world a) (a_world a') /\ (forall d, a_default a = Some d -> a_default a' = Some d).
Proof. intros ids a a' G H U. eapply (HookTame.steps_arun any_global); eauto. eapply arun_fits_any; eauto. Qed.
