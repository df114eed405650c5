(** * HookOnce: styles that are not unregistered are made once. *)

From Coq Require Import String Ascii List NArith Bool Arith Lia Permutation.
From Verif Require Import Str StrFacts Ast Render CssParser Ids IdFacts Manager SpecManager
  ManagerFacts ManagerInv ManagerSteps ManagerCore ManagerProps Hydrate Hooks SpecHooks HookFacts HookOnly HookTame.
Import ListNotations.
Local Open Scope list_scope.
Local Opaque parse to_style_str.

(** What a step makes is registered. *)
Definition old_or_registered (w w' : world) : Prop :=
  forall cid c, nth_error (w_contents w') cid = Some c ->
  (exists d, nth_error (w_contents w) cid = Some d /\ base c = base d) \/ registered w' (c_mgr c) (c_key c) cid.
Lemma oor_base w w' : map base (w_contents w') = map base (w_contents w) -> old_or_registered w w'.
Proof. intros B cid c H. left. destruct (base_nth _ _ _ _ B H) as (d & Hd & Q). eauto. Qed.

Lemma oor_load mi l : forall w m,
  nth_error (w_mgrs w) mi = Some m -> old_or_registered w (fst (load_data mi l w)).
Proof.
  induction l as [|r l IH]; intros w m Hm; [now apply oor_base|].
  cbn [load_data]. destruct (load_one mi r w) as [w1|] eqn:E; [|now apply oor_base].
  pose proof (load_data_registered mi l w1) as Keep.
  unfold load_one in E. rewrite Hm in E. destruct (reg_get (m_reg m) (r_key r)) as [cid|] eqn:G.
  - assert (w1 = w) as ->.
    { destruct (nth_error _ cid); [destruct (str_eqb _ _); [|discriminate]|]; congruence. }
    eapply IH; eauto.
  - cbv zeta in E. injection E as <-. match goal with |- old_or_registered w (fst (load_data mi l ?x)) => set (w1 := x) in * end.
    assert (exists m1, nth_error (w_mgrs w1) mi = Some m1 /\ In (r_key r, List.length (w_contents w)) (m_reg m1)) as (m1 & Hm1 & I1).
    { eexists. cbn. rewrite nth_upd_eq, Hm. split; [reflexivity|]. cbn. apply in_app_iff. right. now left. }
    intros cid c Hc. destruct (IH w1 m1 Hm1 cid c Hc) as [(d & Hd & B)|R]; [|now right].
    cbn in Hd. apply nth_app_inv in Hd. destruct Hd as [Hd|[-> Ed]]; [left; eauto|].
    right. apply base_fields in B. destruct B as (_ & B2 & _ & B4 & _). rewrite B2, B4, Ed. cbn [c_mgr c_key].
    apply Keep. exists m1. auto.
Qed.
Lemma oor_create e mi m k w :
  nth_error (w_mgrs w) mi = Some m -> old_or_registered w (fst (get_or_register e mi k w)).
Proof.
  intros Hm. unfold get_or_register. rewrite Hm. destruct (reg_get (m_reg m) k) as [cid|] eqn:G.
  - apply oor_base. cbn. apply base_upd_retain.
  - cbv zeta. destruct (e_debug e && _); [now apply oor_base|].
    set (id := new_id _ _ _). set (text := style_text _ _).
    assert (Add : forall f d hs, m_reg (f m) = m_reg m ++ [(k, List.length (w_contents w))] ->
              old_or_registered w (mk_world (S (w_draws w)) (w_contents w ++ [mk_content id k text mi false 2])
                      (upd (w_mgrs w) mi f) d hs (w_mhandles w))).
    { intros f d hs Hf cid c Hc. cbn in Hc. apply nth_app_inv in Hc. destruct Hc as [Hc|[-> Ed]]; [left; eauto|].
      right. rewrite Ed. cbn. exists (f m). cbn. rewrite nth_upd_eq, Hm. split; auto. rewrite Hf. apply in_app_iff. right. now left. }
    destruct (m_data m) as [l|] eqn:D; cbn [fst].
    + unfold admit_content. cbn. rewrite upd_upd. now apply Add.
    + destruct (mount _ _ _ _ _); cbn [fst]; [now apply Add|]. now apply oor_base.
Qed.
Definition makes (o : op) : bool := match o with OCreate _ _ | OLoad _ _ => true | _ => false end.
Lemma quiet_base e w o : makes o = false -> map base (w_contents (fst (step e w o))) = map base (w_contents w).
Proof.
  destruct o; cbn [step makes]; try discriminate; intros _.
  - unfold build. destruct (e_wasm e); [|reflexivity]. destruct cont; [reflexivity|].
    destruct (e_document e); [|reflexivity]. now destruct (e_head e).
  - unfold clone_manager. now destruct (handle_of _ _).
  - unfold drop_manager. destruct (handle_of _ _); [|reflexivity].
    destruct (nth_error _ _); [|reflexivity]. cbv zeta. destruct (Nat.eqb _ 0); [|reflexivity].
    cbn [fst]. match goal with |- map base (w_contents (release_all e ?x ?y)) = _ =>
      destruct (release_all_frame e x y) as (_ & _ & _ & _ & ->) end. reflexivity.
  - unfold clone_style. destruct (handle_of _ _); [|reflexivity]. apply base_upd_retain.
  - unfold drop_style. destruct (handle_of _ _); [|reflexivity]. cbn [fst].
    match goal with |- map base (w_contents (release e ?x ?y)) = _ =>
      destruct (release_frame e x y) as (_ & _ & _ & _ & ->) end. reflexivity.
  - unfold unregister_style. destruct (handle_of (w_handles w) h) as [n|]; [|auto].
    destruct (nth_error (w_contents w) n) as [x|]; [|auto]. destruct (nth_error (w_mgrs w) (c_mgr x)) as [m|]; [|auto].
    destruct (Nat.eqb _ _); [auto|]. destruct (reg_remove _ _) as [r [q|]]; [|auto]. cbn [fst].
    match goal with |- context [release e ?l ?x] => destruct (release_frame e l x) as (_ & _ & _ & _ & F) end. now rewrite F.
  - now destruct (handle_of (w_mhandles w) h).
  - reflexivity.
  - reflexivity.
Qed.
Lemma oor_step e ids w o : core e ids [] w -> old_or_registered w (fst (step e w o)).
Proof.
  intros C. destruct (makes o) eqn:M; [|apply oor_base; now apply quiet_base]. destruct o; try discriminate; cbn [step].
  - destruct (handle_of (w_mhandles w) h) as [mj|] eqn:H; [|now apply oor_base].
    destruct (core_manager _ _ _ _ _ _ C H) as (m & Hm & Hs). eapply oor_create; eauto.
  - destruct (handle_of (w_mhandles w) h) as [mj|] eqn:H; [|now apply oor_base].
    destruct (core_manager _ _ _ _ _ _ C H) as (m & Hm & Hs). pose proof (oor_load mj d w m Hm) as K.
    destruct (load_data mj d w) as [w1 b]. destruct b; exact K.
Qed.

(** The contents of a manager with a key are registered, if the manager is alive. *)
Definition all_registered (w : world) (mi : nat) (k : key) : Prop :=
  forall cid c, nth_error (w_contents w) cid = Some c -> c_mgr c = mi -> c_key c = k ->
  registered w mi k cid \/ mdead w mi.
Lemma all_registered_step T e w o mi k :
  cored e w -> tame T w o -> ~ T mi k -> all_registered w mi k -> all_registered (fst (step e w o)) mi k.
Proof.
  intros C Tm N A cid c Hc <- <-. destruct C as [ids C]. destruct (oor_step e ids w o C cid c Hc) as [(d & Hd & B)|R]; [|now left].
  apply base_fields in B. destruct B as (_ & B2 & _ & B4 & _).
  destruct (A cid d Hd) as [R|D]; [congruence|congruence| |right; now apply mdead_step].
  apply (keep_step T); auto. now exists ids.
Qed.
Lemma all_registered_steps T e w w' mi k :
  stepsT T e w w' -> cored e w -> ~ T mi k -> all_registered w mi k -> all_registered w' mi k.
Proof.
  induction 1 as [|w o w' Tm S IH]; auto. intros C N A. apply IH; auto; [now apply cored_step|].
  eapply all_registered_step; eauto.
Qed.
Lemma all_registered_one e w mi k i j c d :
  cored e w -> mlive w mi -> all_registered w mi k ->
  nth_error (w_contents w) i = Some c -> c_mgr c = mi -> c_key c = k ->
  nth_error (w_contents w) j = Some d -> c_mgr d = mi -> c_key d = k -> i = j.
Proof.
  intros [ids C] [h L] A Hc Mc Kc Hd Md Kd.
  destruct (A _ _ Hc Mc Kc) as [(m & Hm & I)|[_ D]]; [|now elim (D h)].
  destruct (A _ _ Hd Md Kd) as [(m' & Hm' & J)|[_ D]]; [|now elim (D h)].
  rewrite Hm in Hm'. injection Hm' as <-. destruct (o_reg _ _ _ _ C _ _ Hm) as (ND & _).
  assert (P : forall r : list (key * nat), NoDup (map fst r) -> In (k, i) r -> In (k, j) r -> i = j).
  { clear. induction r as [|[k' x] r IH]; cbn; [tauto|]. intros N [E|I] [F|J]; inversion N; subst; auto; try congruence.
    - injection E as -> ->. elim H1. apply in_map_iff. now exists (k, j).
    - injection F as -> ->. elim H1. apply in_map_iff. now exists (k, i). }
  eauto.
Qed.

(** ** Handles of styles *)

Lemma handles_step e w o : passes (w_handles w) (w_handles (fst (step e w o))).
Proof.
  destruct (step_handles e w o) as [->|[(c & ->)|(h & _ & ->)]]; [apply passes_refl| |].
  - split; [rewrite app_length; lia|]. intros h H. left. now apply nth_error_app1.
  - split; [now rewrite upd_length|]. intros i H. rewrite nth_upd. destruct (Nat.eqb_spec h i) as [->|]; auto.
    destruct (nth_error (w_handles w) i) eqn:E; auto.
Qed.
Lemma handles_steps T e w w' : stepsT T e w w' -> passes (w_handles w) (w_handles w').
Proof. induction 1; [apply passes_refl|]. eapply passes_trans; [apply handles_step|eauto]. Qed.

(** What is new after some steps is registered. *)
Lemma new_registered T e w w' : stepsT T e w w' -> cored e w ->
  forall cid c, nth_error (w_contents w') cid = Some c -> List.length (w_contents w) <= cid ->
  ~ T (c_mgr c) (c_key c) -> registered w' (c_mgr c) (c_key c) cid \/ mdead w' (c_mgr c).
Proof.
  induction 1 as [|w o w' Tm S IH]; intros C cid c Hc L N; [apply nth_lt in Hc; lia|].
  pose proof (cored_step e w o C) as C1.
  destruct (le_lt_dec (List.length (w_contents (fst (step e w o)))) cid) as [L1|L1]; [now apply IH|].
  destruct (nth_error (w_contents (fst (step e w o))) cid) as [d|] eqn:Hd; [|apply nth_error_None in Hd; lia].
  destruct C as [ids C]. destruct (oor_step e ids w o C cid d Hd) as [(x & Hx & _)|R]; [apply nth_lt in Hx; lia|].
  destruct (steps_contents _ _ _ _ _ _ S Hd) as (c' & Hc' & B). rewrite Hc in Hc'. injection Hc' as <-.
  apply base_fields in B. destruct B as (_ & B2 & _ & B4 & _). rewrite B2, B4 in *.
  eapply keep_steps; eauto.
Qed.
Lemma old_content T e w w' cid c :
  stepsT T e w w' -> nth_error (w_contents w') cid = Some c -> cid < List.length (w_contents w) ->
  exists d, nth_error (w_contents w) cid = Some d /\ c_mgr d = c_mgr c /\ c_key d = c_key c.
Proof.
  intros S Hc L. destruct (nth_error (w_contents w) cid) as [d|] eqn:Hd; [|apply nth_error_None in Hd; lia].
  exists d. split; auto. destruct (steps_contents _ _ _ _ _ _ S Hd) as (c' & Hc' & B). rewrite Hc in Hc'. injection Hc' as <-.
  apply base_fields in B. destruct B as (_ & B2 & _ & B4 & _). auto.
Qed.
