(** * GoneFacts: what a server that mounts CSS again records (C58). *)

From Coq Require Import String Ascii List NArith Bool Arith Lia Permutation.
From Verif Require Import Str StrFacts Ast Render CssParser Ids IdFacts Manager SpecManager
  ManagerFacts ManagerInv ManagerSteps ManagerCore ManagerProps Hydrate Hooks SpecHooks
  HookFacts HookOnly HookTame HookOnce PropsManager PropsHooks PropsHydrate PropsGlobal.
Import ListNotations.
Local Open Scope list_scope.
Local Opaque parse to_style_str.

(** What is newly registered is a new style. *)
Lemma contents_grow e w o : List.length (w_contents w) <= List.length (w_contents (fst (step e w o))).
Proof.
  destruct (le_lt_dec (List.length (w_contents w)) (List.length (w_contents (fst (step e w o))))) as [L|L]; auto.
  destruct (nth_error (w_contents w) (List.length (w_contents (fst (step e w o))))) as [c|] eqn:E; [|apply nth_error_None in E; lia].
  destruct (steps_contents _ _ _ _ _ _ (steps_one (fun _ _ => True) e w o ltac:(idtac; intros h ->;
    destruct (handle_of (w_handles w) h) as [cid|] eqn:Hh; [|exfalso; cbn [step] in L; unfold unregister_style in L; rewrite Hh in L; cbn in L; lia];
    destruct (nth_error (w_contents w) cid) as [d|] eqn:Hd; [|exfalso; cbn [step] in L; unfold unregister_style in L; rewrite Hh, Hd in L; cbn in L; lia];
    exists cid, d; split; [first [exact Hh|reflexivity]|]; split; [first [exact Hd|reflexivity]|exact Logic.I])) E) as (d & Hd & _).
  apply nth_lt in Hd. lia.
Qed.

Lemma load_old mi l : forall w mj k x,
  registered (fst (load_data mi l w)) mj k x -> registered w mj k x \/ List.length (w_contents w) <= x.
Proof.
  induction l as [|r l IH]; intros w mj k x R; [now left|].
  cbn [load_data] in R. destruct (load_one mi r w) as [w1|] eqn:E; [|now left].
  apply IH in R. unfold load_one in E. destruct (nth_error (w_mgrs w) mi) as [m|] eqn:Hm; [|injection E as <-; exact R].
  destruct (reg_get (m_reg m) (r_key r)) as [cid|] eqn:G.
  - assert (w1 = w) as ->; [|exact R].
    destruct (nth_error _ cid); [destruct (str_eqb _ _); [|discriminate]|]; congruence.
  - cbv zeta in E. injection E as <-. destruct R as [(m' & Hm' & I)|L].
    + cbn in Hm'. rewrite nth_upd in Hm'. destruct (Nat.eqb_spec mi mj) as [->|N].
      * rewrite Hm in Hm'. cbn in Hm'. injection Hm' as <-. cbn in I. apply in_app_iff in I. destruct I as [I|[I|[]]].
        -- left. now exists m.
        -- injection I as _ <-. now right.
      * left. now exists m'.
    + cbn in L. rewrite app_length in L. right. lia.
Qed.

Lemma reg_old e w o mi k x : cored e w ->
  registered (fst (step e w o)) mi k x -> registered w mi k x \/ List.length (w_contents w) <= x.
Proof.
  intros [ids C] R. destruct (manages o) eqn:M; [left; now apply (manages_frame e w o M)|]. destruct o; try discriminate.
  - cbn [step] in R. destruct (handle_of (w_mhandles w) h) as [mj|] eqn:Hh; [|now left].
    unfold get_or_register in R. destruct (nth_error (w_mgrs w) mj) as [m|] eqn:Hm; [|now left].
    destruct (reg_get (m_reg m) k0) as [cid|]; [left; apply (registered_mgrs _ w) in R; [exact R|reflexivity]|].
    assert (U : forall w' f, (forall y, In y (m_reg (f m)) -> In y (m_reg m) \/ y = (k0, List.length (w_contents w))) ->
       w_mgrs w' = upd (w_mgrs w) mj f -> registered w' mi k x -> registered w mi k x \/ List.length (w_contents w) <= x).
    { intros w' f F E (m' & Hm' & I). rewrite E, nth_upd in Hm'. destruct (Nat.eqb_spec mj mi) as [->|]; [|left; now exists m'].
      rewrite Hm in Hm'. cbn in Hm'. injection Hm' as <-. apply F in I. destruct I as [I|I]; [left; now exists m|].
      injection I as _ ->. now right. }
    cbv zeta in R. destruct (e_debug e && _); [left; exact R|].
    destruct (m_data m) as [ld|].
    + eapply U; [| |exact R]; [|unfold admit_content; cbn; apply upd_upd]. cbn. intros q I. apply in_app_iff in I. destruct I as [I|[I|[]]]; auto.
    + destruct (mount _ _ _ _ _); [|left; exact R]. eapply U; [| |exact R]; [|unfold admit_content; cbn; reflexivity].
      cbn. intros q I. apply in_app_iff in I. destruct I as [I|[I|[]]]; auto.
  - left. apply (registered_mgrs _ w) in R; [exact R|]. cbn [step]. unfold clone_style. now destruct (handle_of (w_handles w) h).
  - left. apply (registered_mgrs _ w) in R; [exact R|]. now rewrite drop_style_frame.
  - left. destruct (handle_of (w_handles w) h) as [cid|] eqn:H.
    2: { cbn [step] in R. unfold unregister_style in R. now rewrite H in R. }
    destruct (core_held _ _ _ _ _ _ C H) as (c & Hc & _).
    destruct (unregister_frame _ _ _ _ _ _ C H Hc) as (_ & F2 & _). now apply F2 in R.
  - cbn [step] in R. destruct (handle_of (w_mhandles w) h) as [mj|]; [|now left].
    apply (load_old mj d). destruct (load_data mj d w) as [w1 b]. destruct b; exact R.
Qed.

Lemma reg_old_steps T e w w' : stepsT T e w w' -> cored e w -> forall mi k x,
  registered w' mi k x -> registered w mi k x \/ List.length (w_contents w) <= x.
Proof.
  induction 1 as [|w o w' Tm S IH]; intros C mi k x R; [now left|].
  destruct (IH (cored_step e w o C) mi k x R) as [R1|L]; [now apply (reg_old e w o)|right].
  pose proof (contents_grow e w o). lia.
Qed.

(** Unregistering a style unregisters its key. *)
Lemma unregister_gone e ids w h cid c :
  core e ids [] w -> handle_of (w_handles w) h = Some cid -> nth_error (w_contents w) cid = Some c ->
  forall x, ~ registered (fst (step e w (OUnregister h))) (c_mgr c) (c_key c) x.
Proof.
  intros C Hh Hc x (m' & Hm' & I). cbn [step] in Hm'. unfold unregister_style in Hm'. rewrite Hh, Hc in Hm'.
  destruct (o_content _ _ _ _ C _ _ Hc) as [Lt _].
  destruct (nth_error (w_mgrs w) (c_mgr c)) as [m|] eqn:Hm; [|apply nth_error_None in Hm; lia].
  destruct (o_reg _ _ _ _ C _ _ Hm) as (ND & Z & _). try rewrite Hm in Hm'.
  destruct (Nat.eqb_spec (m_strong m) 0) as [E|E].
  - cbn [fst] in Hm'. rewrite Hm in Hm'. injection Hm' as <-. now rewrite (Z E) in I.
  - destruct (reg_remove (m_reg m) (c_key c)) as [r o] eqn:Rm. try rewrite Rm in Hm'. cbv zeta in Hm'. cbn [fst] in Hm'.
    set (w1 := with_mgrs w (upd (w_mgrs w) (c_mgr c) (set_reg r))) in *.
    assert (F : w_mgrs (match o with Some x => release e x w1 | None => w1 end) = w_mgrs w1).
    { destruct o as [z|]; auto. now destruct (release_frame e z w1) as (_ & F2 & _). }
    assert (Hm2 : nth_error (w_mgrs w1) (c_mgr c) = Some m') by (rewrite <- F; exact Hm').
    unfold w1 in Hm2. cbn in Hm2. rewrite nth_upd_eq, Hm in Hm2. cbn in Hm2. injection Hm2 as <-. cbn in I.
    apply reg_remove_spec in Rm. destruct Rm as [(_ & -> & N)|(a & z & b & _ & Em & -> & N)].
    + apply N. apply in_map_iff. now exists (c_key c, x).
    + rewrite Em, map_app in ND. cbn in ND. apply NoDup_remove_2 in ND. rewrite <- map_app in ND.
      apply ND. apply in_map_iff. now exists (c_key c, x).
Qed.

Lemma quiet_old e w o mi k x : cored e w -> makes o = false -> registered (fst (step e w o)) mi k x -> registered w mi k x.
Proof.
  intros C M R. destruct (reg_old e w o mi k x C R) as [R1|L]; [exact R1|exfalso].
  apply (quiet_base e w) in M. apply (f_equal (@List.length _)) in M. rewrite !map_length in M.
  destruct (cored_step e w o C) as [ids C1]. destruct R as (m & Hm & I).
  destruct (o_reg _ _ _ _ C1 _ _ Hm) as (_ & _ & K). destruct (K _ _ I) as (c & Hc & _). apply nth_lt in Hc. lia.
Qed.
Lemma quiet_drop_source e src w mi k x : cored e w -> registered (drop_source e src w) mi k x -> registered w mi k x.
Proof. intros C R. unfold drop_source in R. destruct (s_manager src); [|exact R]. now apply (quiet_old e w) in R. Qed.
Lemma quiet_drop_deps e g w mi k x : cored e w -> registered (drop_deps e g w) mi k x -> registered w mi k x.
Proof.
  intros C R. unfold drop_deps in R. apply quiet_drop_source in R; [|now apply cored_step]. now apply (quiet_old e w) in R.
Qed.

(** Dropping a [Global] unregisters its key. *)
Lemma drop_value_gone e g w cid c : cored e w ->
  handle_of (w_handles w) (g_style g) = Some cid -> nth_error (w_contents w) cid = Some c ->
  forall x, ~ registered (drop_value e g w) (c_mgr c) (c_key c) x.
Proof.
  intros C Hh Hc x R. unfold drop_value in R. apply quiet_old in R; [|now apply cored_step|reflexivity].
  destruct C as [ids C]. now apply (unregister_gone e ids w _ cid c C Hh Hc) in R.
Qed.
Lemma drop_guard_gone y e g w mi m : cored e w -> guard_ok w g ->
  handle_of (w_mhandles w) (g_manager g) = Some mi -> nth_error (w_mgrs w) mi = Some m ->
  forall x, ~ registered (drop_guard y e g w) mi (global_key m (s_sheet (g_source g))) x.
Proof.
  intros C (mj & m' & cid & c & H1 & H2 & H3 & H4 & H5 & H6) Hm Hg x R.
  rewrite H1 in Hm. injection Hm as <-. rewrite H2 in Hg. injection Hg as <-. unfold drop_guard in R. rewrite <- H5, <- H6 in R.
  destruct (y_key_first y).
  - pose proof (steps_drop_deps (fun _ _ => False) e g w) as St.
    destruct (steps_contents _ _ _ _ _ _ St H4) as (d & Hd & B). apply base_fields in B. destruct B as (_ & B2 & _ & B4 & _).
    rewrite <- B2, <- B4 in R. revert R. apply (drop_value_gone e g (drop_deps e g w) cid d); [|
      unfold drop_deps, drop_source; destruct (s_manager (g_source g)); rewrite !(proj1 (manages_frame e _ (ODropManager _) eq_refl)); exact H3|exact Hd].
    unfold drop_deps, drop_source. destruct (s_manager (g_source g)); auto using cored_step.
  - apply quiet_drop_deps in R; [|unfold drop_value; auto using cored_step].
    revert R. now apply (drop_value_gone e g w cid c).
Qed.

(** ** CSS that was unmounted *)

Definition gone_inv (a : app) (mi : nat) (gone : list sheet) : Prop :=
  forall s, In s gone -> exists m cid c,
    nth_error (w_mgrs (a_world a)) mi = Some m /\ nth_error (w_contents (a_world a)) cid = Some c
    /\ c_mgr c = mi /\ c_key c = global_key m s
    /\ forall x, ~ registered (a_world a) mi (global_key m s) x.

Lemma guard_origin y e page ids a o a' j g :
  app_good e page ids a -> astep y e a o = Some a' ->
  match o with ARender _ _ _ | AUnmount _ => False | _ => True end ->
  nth_error (a_globals a') j = Some (Some g) ->
  nth_error (a_globals a) j = Some (Some g)
  \/ j = List.length (a_globals a) /\ exists ctx src, o = AMount ctx src.
Proof.
  intros G H Ok Hj. destruct o as [o|ctx src|? ? ?|?|src|ctx src]; try contradiction; cbn [astep] in H.
  - left. destruct (free _ _ && free _ _); [|discriminate].
    destruct (step e (a_world a) o) as [w [ | | | | | ]]; try discriminate; injection H as <-; exact Hj.
  - destruct (render_global y e None ctx src a) as [[a1 g1]|] eqn:Rg; [|discriminate]. injection H as <-.
    destruct (good_render y e page _ None ctx src a a1 g1 (guards a) G (Permutation_refl _) Rg) as [_ Eg].
    cbn in Hj. rewrite Eg in Hj. apply nth_app_inv in Hj. destruct Hj as [Hj|[-> _]]; [now left|right]. split; eauto.
  - left. destruct (user_source a src) eqn:Us; [|discriminate].
    destruct (into_classes e src a) as [[a1 cl]|] eqn:E; [|discriminate]. injection H as <-. cbn [fst] in Hj.
    destruct (good_classes _ _ _ _ _ _ _ G Us E) as [_ Eg]. now rewrite Eg in Hj.
  - left. destruct (user_source a src) eqn:Us; [|discriminate].
    destruct (use_style e ctx src a) as [[a1 x]|] eqn:E; [|discriminate]. injection H as <-. cbn [fst] in Hj.
    destruct (good_use_style _ _ _ _ _ _ _ _ G Us E) as [_ Eg]. now rewrite Eg in Hj.
Qed.

(** What was there before some steps is there after them. *)
Lemma gone_old T e w w' mi m cid c s : stepsT T e w w' ->
  nth_error (w_mgrs w) mi = Some m -> nth_error (w_contents w) cid = Some c -> c_mgr c = mi -> c_key c = global_key m s ->
  exists m' c', nth_error (w_mgrs w') mi = Some m' /\ nth_error (w_contents w') cid = Some c'
    /\ c_mgr c' = mi /\ c_key c' = global_key m' s /\ global_key m' s = global_key m s.
Proof.
  intros St Hm Hc Mc Kc. destruct (steps_contents _ _ _ _ _ _ St Hc) as (d & Hd & B). apply base_fields in B. destruct B as (_ & B2 & _ & B4 & _).
  destruct (steps_like _ _ _ _ _ _ St Hm) as (m' & Hm' & Lk). exists m', d.
  assert (E : global_key m' s = global_key m s) by (destruct Lk as (Lp & _); unfold global_key; now rewrite Lp).
  split; [exact Hm'|]. split; [exact Hd|]. split; [congruence|]. split; [congruence|exact E].
Qed.

Lemma gone_astep y e page ids a o a' mi gone :
  app_good e page ids a -> only (a_world a) (guards a) -> astep y e a o = Some a' ->
  match o with AUnmount _ => False | _ => serves o end ->
  (forall ctx src s, o = AMount ctx src -> carried a' (List.length (a_globals a)) = Some (mi, s) -> ~ In s gone) ->
  gone_inv a mi gone -> gone_inv a' mi gone.
Proof.
  intros G O H Ok New I s Is. pose proof (good_astep _ _ _ _ _ _ _ G H) as G'.
  assert (GO : globals_only o = true) by (destruct o; cbn in *; tauto). assert (U : unregisters o = false) by (destruct o; cbn in *; tauto).
  pose proof (only_astep _ _ _ _ _ _ _ G O GO H) as [_ O'].
  destruct (steps_astep (fun _ _ => False) _ _ _ _ _ _ _ G H U) as [St _]; [destruct o; cbn in *; tauto|].
  assert (Cd : cored e (a_world a)) by (eexists; eapply good_core; eauto).
  destruct (I s Is) as (m & cid & c & Hm & Hc & Mc & Kc & Nr).
  destruct (gone_old _ _ _ _ _ _ _ _ _ St Hm Hc Mc Kc) as (m' & c' & Hm' & Hc' & Mc' & Kc' & Ek).
  exists m', cid, c'. do 4 (split; [assumption|]). rewrite Ek. intros x R.
  destruct (reg_old_steps _ _ _ _ St Cd _ _ _ R) as [R0|L]; [now apply (Nr x)|].
  destruct (O' _ _ _ R eq_refl) as (g & Ig & Hg). apply guards_in in Ig. destruct Ig as [j Hj].
  destruct (guard_carried _ _ _ _ _ _ G' Hj) as ((mj & m2 & cid2 & c2 & H1 & H2 & H3 & H4 & H5 & H6) & mk & C & H7).
  rewrite Hg in H3. injection H3 as <-. rewrite H1 in H7. injection H7 as <-.
  pose proof (good_core _ _ _ _ _ _ G') as Co'. destruct R as (m3 & Hm3 & In3). rewrite Hm' in Hm3. injection Hm3 as <-.
  destruct (o_reg _ _ _ _ Co' _ _ Hm') as (_ & _ & Rk). destruct (Rk _ _ In3) as (c4 & Hc4 & K1 & K2).
  rewrite H4 in Hc4. injection Hc4 as <-. rewrite K2 in H6. subst mj. rewrite Hm' in H2. injection H2 as <-.
  assert (Es : s_sheet (g_source g) = s) by (rewrite H5, <- Ek in K1; unfold global_key in K1; congruence). rewrite Es in C.
  destruct (guard_origin y e page ids a o a' j g G H) as [Hj0|[-> (ctx & src & ->)]]; [destruct o; cbn in *; tauto|exact Hj| |].
  - destruct (guard_carried _ _ _ _ _ _ G Hj0) as ((_ & _ & cid0 & c0 & _ & _ & J3 & J4 & _) & _).
    pose proof (passes_same _ _ _ _ _ (handles_steps _ _ _ _ St) J3 Hg) as ->. apply nth_lt in J4. lia.
  - exact (New _ _ _ eq_refl C Is).
Qed.

Lemma drop_guard_old y e g w mi k x : cored e w -> registered (drop_guard y e g w) mi k x -> registered w mi k x.
Proof.
  intros C R. unfold drop_guard, drop_value in R. destruct (y_key_first y).
  - assert (Cd : cored e (drop_deps e g w)) by (unfold drop_deps, drop_source; destruct (s_manager (g_source g)); auto using cored_step).
    apply quiet_old in R; [|now apply cored_step|reflexivity]. apply quiet_old in R; [|exact Cd|reflexivity].
    now apply quiet_drop_deps in R.
  - apply quiet_drop_deps in R; [|auto using cored_step].
    apply quiet_old in R; [|now apply cored_step|reflexivity]. now apply quiet_old in R.
Qed.

Lemma gone_unmount y e page ids a i a' mi gone :
  app_good e page ids a -> astep y e a (AUnmount i) = Some a' -> gone_inv a mi gone ->
  gone_inv a' mi match carried a i with
                 | Some (mj, s) => if Nat.eqb mj mi then s :: gone else gone
                 | None => gone
                 end.
Proof.
  intros G H I. cbn [astep] in H. destruct (nth_error (a_globals a) i) as [[g|]|] eqn:Hg; try discriminate. injection H as <-.
  destruct (guard_carried _ _ _ _ _ _ G Hg) as (Ok & mj & C & Hm). rewrite C.
  assert (Cd : cored e (a_world a)) by (eexists; eapply good_core; eauto).
  assert (St : stepsT (fun _ _ => True) e (a_world a) (drop_guard y e g (a_world a))).
  { apply steps_drop_guard; auto. destruct Ok as (mk & m & _ & _ & K1 & K2 & _). exists mk, m. auto. }
  assert (Old : gone_inv (with_globals (with_world a (drop_guard y e g (a_world a))) (upd (a_globals a) i (fun _ => None))) mi gone).
  { intros s Is. destruct (I s Is) as (m & cid & c & Hm1 & Hc & Mc & Kc & Nr).
    destruct (gone_old _ _ _ _ _ _ _ _ _ St Hm1 Hc Mc Kc) as (m' & c' & Hm' & Hc' & Mc' & Kc' & Ek).
    exists m', cid, c'. do 4 (split; [assumption|]). rewrite Ek. intros x R. cbn [a_world with_globals with_world] in R.
    apply drop_guard_old in R; [|exact Cd]. now apply (Nr x). }
  destruct (Nat.eqb_spec mj mi) as [->|N]; [|exact Old].
  intros s [<-|Is]; [|now apply Old].
  pose proof Ok as (mk & m & cid & c & K1 & K2 & K3 & K4 & K5 & K6). rewrite Hm in K1. injection K1 as <-.
  destruct (gone_old _ _ _ _ _ _ _ _ _ St K2 K4 K6 K5) as (m' & c' & Hm' & Hc' & Mc' & Kc' & Ek).
  exists m', cid, c'. do 4 (split; [assumption|]). rewrite Ek.
  exact (drop_guard_gone y e g (a_world a) mi m Cd Ok Hm K2).
Qed.

(** A [Global] that was mounted has its style registered. *)
Lemma mount_registered y e page ids a ctx src a' mi s :
  app_good e page ids a -> astep y e a (AMount ctx src) = Some a' ->
  carried a' (List.length (a_globals a)) = Some (mi, s) ->
  exists m cid c, nth_error (w_mgrs (a_world a')) mi = Some m /\ nth_error (w_contents (a_world a')) cid = Some c
    /\ c_mgr c = mi /\ c_key c = global_key m s /\ registered (a_world a') mi (global_key m s) cid.
Proof.
  intros G S K. pose proof (good_astep _ _ _ _ _ _ _ G S) as G'.
  destruct (guard_of _ _ _ _ _ _ _ G' K) as (g & Hg & Es & Hm').
  destruct (guard_carried _ _ _ _ _ _ G' Hg) as ((mk & m & cid & c & Q1 & Q2 & Q3 & Q4 & Q5 & Q6) & _).
  rewrite Hm' in Q1. injection Q1 as <-. rewrite Es in Q5. exists m, cid, c. do 4 (split; [assumption|]).
  cbn [astep] in S. destruct (render_global y e None ctx src a) as [[a1 g1]|] eqn:Rg; [|discriminate]. injection S as <-.
  cbn [a_world with_globals a_globals] in *. unfold render_global in Rg.
  destruct (context_manager e ctx a) as [[a2 h]|] eqn:E; [|discriminate].
  destruct (good_context e page _ _ _ _ _ G E) as [G1 Eg].
  destruct (clone_source e src (a_world a2)) as [[w1 src1]|] eqn:Ec; [|discriminate].
  destruct (good_clone_source e page _ _ _ _ _ _ _ G1 Ec) as [G2 _].
  destruct (memo y e None h src1 w1) as [[w2 g2]|] eqn:Em; [|discriminate]. injection Rg as <- <-.
  cbn [a_world with_world a_globals] in *. rewrite Eg, nth_app_new in Hg. injection Hg as <-.
  cbn [memo] in Em. unfold new_guard in Em. destruct (manager_of w1 h) as [m1|]; [|discriminate].
  destruct (step e w1 (OCreate h (global_key m1 (s_sheet src1)))) as [w3 [x| | | | |]] eqn:S; try discriminate.
  injection Em as <- <-. cbn [g_style g_manager g_source] in *.
  destruct (create_result e _ _ _ _ _ _ (good_core _ _ _ _ _ _ G2) S) as (_ & mj & cid' & c' & A1 & A2 & _ & A3 & A4 & A5 & A6).
  rewrite Q3 in A2. injection A2 as <-. rewrite Q4 in A3. injection A3 as <-. congruence.
Qed.

Lemma keys_clash_steps T e w w' mi : stepsT T e w w' -> ~ keys_apart w mi -> ~ keys_apart w' mi.
Proof.
  intros St N A. apply N. intros i j c d Hc Hd Mc Md Ek.
  destruct (steps_contents _ _ _ _ _ _ St Hc) as (c' & Hc' & B). apply base_fields in B. destruct B as (_ & B2 & _ & B4 & _).
  destruct (steps_contents _ _ _ _ _ _ St Hd) as (d' & Hd' & B'). apply base_fields in B'. destruct B' as (_ & B2' & _ & B4' & _).
  apply (A i j c' d'); congruence.
Qed.

Lemma arun_served_steps y e page l : forall ids a a', app_good e page ids a -> arun y e a l = Some a' -> Forall serves l ->
  stepsT (fun _ _ => True) e (a_world a) (a_world a').
Proof.
  induction l as [|o l IH]; intros ids a a' G H F; cbn [arun] in H; [injection H as <-; constructor|].
  destruct (astep y e a o) as [a1|] eqn:S; [|discriminate]. inversion F; subst.
  assert (U : unregisters o = false) by (destruct o; cbn in *; tauto).
  pose proof (good_astep _ _ _ _ _ _ _ G S) as G1.
  destruct (steps_astep (fun _ _ => True) _ _ _ _ _ _ _ G S U) as [St _].
  - destruct o; cbn in *; auto; try tauto. intros g Hg.
    destruct (guard_carried _ _ _ _ _ _ G Hg) as ((mj & m & _ & _ & K1 & K2 & _) & _). exists mj, m. auto.
  - eapply steps_trans; [exact St|]. eapply IH; eauto.
Qed.

(** A server is orderly, or it has made two styles with one key. *)
Lemma orderly_or_clash y e page mi l : forall ids a a' gone,
  app_good e page ids a -> only (a_world a) (guards a) -> arun y e a l = Some a' -> Forall serves l ->
  gone_inv a mi gone -> orderly y e a l mi gone \/ ~ keys_apart (a_world a') mi.
Proof.
  induction l as [|o l IH]; intros ids a a' gone G O H F I; [now left|]. pose proof H as H0.
  cbn [arun] in H. destruct (astep y e a o) as [a1|] eqn:S; [|discriminate]. inversion F as [|? ? F1 F2]; subst.
  assert (GO : globals_only o = true) by (destruct o; cbn in *; tauto).
  pose proof (good_astep _ _ _ _ _ _ _ G S) as G1. pose proof (only_astep _ _ _ _ _ _ _ G O GO S) as O1.
  cbn [orderly]. rewrite S.
  destruct o as [o|ctx src|i ctx src|i|src|ctx src]; try contradiction.
  - destruct (IH _ a1 a' gone G1 O1 H F2) as [Or|K]; [eapply gone_astep; [exact G|exact O|exact S|exact F1|intros; discriminate|exact I]| |now right]. left. split; [exact F1|exact Or].
  - assert (Dec : (exists s, carried a1 (List.length (a_globals a)) = Some (mi, s) /\ In s gone)
                  \/ (forall s, carried a1 (List.length (a_globals a)) = Some (mi, s) -> ~ In s gone)).
    { destruct (carried a1 (List.length (a_globals a))) as [[mj s]|]; [|right; discriminate].
      destruct (Nat.eq_dec mj mi) as [->|N]; [|right; congruence].
      assert (D : forall a b : sheet, {a = b} + {a <> b}).
      { intros p q. destruct (sheet_eqb p q) eqn:E; [left; now apply sheet_eqb_eq|right; intros ->].
        assert (sheet_eqb q q = true) by now apply sheet_eqb_eq. congruence. }
      destruct (in_dec D s gone) as [Is|N]; [left; eauto|right]. intros s' E. injection E as <-. exact N. }
    destruct Dec as [(s & C & Is)|N].
    + right. destruct (I s Is) as (m & cid & c & Hm & Hc & Mc & Kc & Nr).
      destruct (steps_astep (fun _ _ => False) _ _ _ _ _ _ _ G S eq_refl Logic.I) as [St _].
      destruct (gone_old _ _ _ _ _ _ _ _ _ St Hm Hc Mc Kc) as (m' & c' & Hm' & Hc' & Mc' & Kc' & Ek).
      destruct (mount_registered _ _ _ _ _ _ _ _ _ _ G S C) as (m2 & cid2 & c2 & Hm2 & Hc2 & Mc2 & Kc2 & R2).
      rewrite Hm' in Hm2. injection Hm2 as <-.
      assert (Cd : cored e (a_world a)) by (eexists; eapply good_core; eauto).
      eapply keys_clash_steps; [eapply arun_served_steps; eauto|]. intros A.
      assert (cid = cid2) as <- by (apply (A cid cid2 c' c2); congruence).
      rewrite Ek in R2. destruct (reg_old_steps _ _ _ _ St Cd _ _ _ R2) as [R|L]; [now apply (Nr cid)|]. apply nth_lt in Hc. lia.
    + destruct (IH _ a1 a' gone G1 O1 H F2) as [Or|K]; [|left|now right].
      * eapply gone_astep; [exact G|exact O|exact S|exact F1| |exact I]. intros c0 s0 s1 _. apply N.
      * split; [exact F1|]. split; [exact N|exact Or].
  - destruct (IH _ a1 a' _ G1 O1 H F2 (gone_unmount _ _ _ _ _ _ _ _ _ G S I)) as [Or|K]; [left|now right]. split; [exact F1|exact Or].
  - destruct (IH _ a1 a' gone G1 O1 H F2) as [Or|K]; [eapply gone_astep; [exact G|exact O|exact S|exact F1|intros; discriminate|exact I]| |now right]. left. split; [exact F1|exact Or].
  - destruct (IH _ a1 a' gone G1 O1 H F2) as [Or|K]; [eapply gone_astep; [exact G|exact O|exact S|exact F1|intros; discriminate|exact I]| |now right]. left. split; [exact F1|exact Or].
Qed.
