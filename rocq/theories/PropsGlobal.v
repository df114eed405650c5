(** * PropsGlobal: what holds of C56, C57 and C59. *)

From Coq Require Import String Ascii List NArith Bool Arith Lia Permutation.
From Verif Require Import Str StrFacts Ast Render CssParser Ids IdFacts Manager SpecManager
  ManagerFacts ManagerInv ManagerSteps ManagerCore ManagerProps Hydrate Hooks SpecHooks
  HookFacts HookOnly HookTame HookOnce PropsManager PropsHooks PropsHydrate.
Import ListNotations.
Local Open Scope list_scope.
Local Opaque parse to_style_str.

(** ** Rendering with the same properties *)

Lemma guard_of e page ids a i mi s :
  app_good e page ids a -> carried a i = Some (mi, s) ->
  exists g, nth_error (a_globals a) i = Some (Some g) /\ s_sheet (g_source g) = s
    /\ handle_of (w_mhandles (a_world a)) (g_manager g) = Some mi.
Proof.
  intros G C. unfold carried in C. destruct (nth_error (a_globals a) i) as [[g|]|]; try discriminate. exists g.
  destruct (handle_of _ (g_manager g)) as [mj|]; [|discriminate]. injection C as -> <-. auto.
Qed.
Definition anything (mi : nat) (k : key) : Prop := True.
Lemma live_same T e page ids w w' gs extra h mi :
  stepsT T e w w' -> good e page ids w' gs extra -> In h (extra ++ owned gs) ->
  handle_of (w_mhandles w) h = Some mi -> handle_of (w_mhandles w') h = Some mi.
Proof.
  intros S G I H. pose proof (gd_live _ _ _ _ _ _ G) as L. rewrite Forall_forall in L. destruct (L h I) as [mi' L'].
  rewrite L'. f_equal. eapply passes_same; [eapply passes_steps; exact S|exact H|exact L'].
Qed.

Lemma render_same_props y e page ids a i ctx src mi s a' :
  app_good e page ids a -> carried a i = Some (mi, s) -> same_props a i ctx src mi ->
  astep y e a (ARender i ctx src) = Some a' ->
  nth_error (a_globals a') i = nth_error (a_globals a) i.
Proof.
  intros G C [Cx (g & Hg & Sq)] H. destruct (guard_of _ _ _ _ _ _ _ G C) as (g' & Hg' & _ & Hm).
  rewrite Hg in Hg'. injection Hg' as <-. cbn [astep] in H. rewrite Hg in H.
  destruct (render_global y e (Some g) ctx src a) as [[a2 g2]|] eqn:R; [|discriminate]. injection H as <-.
  cbn [a_globals with_globals]. unfold render_global in R.
  destruct (context_manager e ctx a) as [[a1 h]|] eqn:E; [|discriminate].
  destruct (good_context e page ids _ _ _ _ G E) as [G1 Eg].
  destruct (steps_context anything _ _ _ _ _ E) as (S1 & D1 & mi' & C1 & Hh).
  assert (mi' = mi) as ->.
  { destruct ctx as [d|]; cbn in Cx, C1; [congruence|]. destruct Cx as (d & X1 & X2). destruct C1 as (d' & Y1 & Y2).
    rewrite (D1 _ X1) in Y1. injection Y1 as <-. eapply passes_same; [eapply passes_steps; exact S1|exact X2|exact Y2]. }
  destruct (clone_source e src (a_world a1)) as [[w1 src1]|] eqn:Es; [|discriminate].
  destruct (good_clone_source e page ids _ _ _ _ _ _ G1 Es) as [G2 Esh].
  pose proof (steps_clone_source anything _ _ _ _ _ Es) as S2.
  assert (Ig : In g (guards a1)) by (unfold guards; rewrite Eg; eapply in_guards; eauto).
  assert (Og : forall x, In x (g_manager g :: source_handles (g_source g)) ->
            In x ((source_handles src1 ++ h :: dflt a1) ++ owned (guards a1))).
  { intros x Ix. apply in_app_iff. right. apply in_flat_map. eauto. }
  pose proof (steps_trans _ _ _ _ _ S1 S2) as S12.
  assert (M1 : handle_of (w_mhandles w1) (g_manager g) = Some mi) by (eapply live_same; eauto; apply Og; now left).
  assert (M2 : handle_of (w_mhandles w1) h = Some mi).
  { eapply live_same; [exact S2|exact G2| |exact Hh]. rewrite !in_app_iff. left. right. now left. }
  assert (Q : same_manager w1 (g_manager g) h && source_eqb w1 (g_source g) src1 = true).
  { apply andb_true_intro. split; [unfold same_manager; now rewrite M1, M2, Nat.eqb_refl|].
    unfold source_eqb in *. apply andb_prop in Sq. destruct Sq as [Sq Q3]. apply andb_prop in Sq. destruct Sq as [Q1 Q2].
    rewrite Esh, Q1. unfold clone_source in Es. destruct (s_manager src) as [hs|] eqn:Hsrc.
    - destruct (step e (a_world a1) (OCloneManager hs)) as [w' [h'| | | | |]] eqn:Sp; try discriminate.
      injection Es as <- <-. cbn [s_manager s_location s_sheet] in *. rewrite Q3, andb_true_r. cbn [andb].
      destruct (s_manager (g_source g)) as [hg|] eqn:Hs; [|discriminate].
      destruct (clone_result _ _ _ _ _ Sp) as (_ & mj & X1 & X2). unfold same_manager in *. rewrite X2.
      destruct (handle_of (w_mhandles (a_world a)) hg) as [ma|] eqn:Ha; [|discriminate].
      destruct (handle_of (w_mhandles (a_world a)) hs) as [mb|] eqn:Hb; [|discriminate]. apply Nat.eqb_eq in Q2. subst mb.
      rewrite (live_same anything e page ids _ _ _ _ hg ma S12 G2); auto; [|apply Og; right; unfold source_handles; rewrite Hs; now left].
      apply Nat.eqb_eq. symmetry. eapply passes_same; [eapply passes_steps; exact S1|exact Hb|exact X1].
    - injection Es as <- <-. destruct (s_manager (g_source g)); [discriminate|]. now rewrite Hsrc, Q3. }
  cbn [memo] in R. rewrite Q in R. injection R as <- <-. cbn [a_globals with_world].
  rewrite nth_upd, Nat.eqb_refl, Eg, Hg. reflexivity.
Qed.

(** ** C56: one copy *)

(** All styles but the global ones of [mi] with the sheet [s]. *)
Definition all_but (mi : nat) (s : sheet) (mj : nat) (k : key) : Prop :=
  ~ (mj = mi /\ k_global k = true /\ k_ast k = s).

Lemma spares_fits y e page mi s l : forall ids a,
  app_good e page ids a -> spares y e a l mi s -> arun_fits (all_but mi s) y e a l.
Proof.
  induction l as [|o l IH]; intros ids a G H; cbn [arun_fits spares] in *; auto. destruct H as [H1 H2].
  split. { destruct o; auto. }
  destruct (astep y e a o) as [a1|] eqn:S; auto. split; [|eapply IH; eauto; eapply good_astep; eauto].
  assert (F : forall i g, nth_error (a_globals a) i = Some (Some g) -> carried a i <> Some (mi, s) -> fits (all_but mi s) (a_world a) g).
  { intros i g Hg Hc. destruct (guard_carried _ _ _ _ _ _ G Hg) as ((mj & m & _ & _ & K1 & K2 & _) & mk & K3 & K4).
    exists mj, m. repeat split; auto. intros (-> & _ & E). cbn in E. rewrite K1 in K4. injection K4 as <-. congruence. }
  destruct o as [o|ctx src|i ctx src|i|src|ctx src]; cbn [astep_fits]; auto.
  - intros g Hg. destruct (carried a i) as [[mj s']|] eqn:C.
    + destruct (Nat.eq_dec mj mi) as [->|N]; [|left; apply (F i); auto; congruence].
      destruct (sheet_eqb s' s) eqn:Q.
      * apply sheet_eqb_eq in Q. subst s'. right. eapply render_same_props; eauto.
      * left. apply (F i); auto. rewrite C. intros E. injection E as ->. assert (sheet_eqb s s = true) by now apply sheet_eqb_eq. congruence.
    + left. apply (F i); auto. congruence.
  - intros g Hg. now apply (F i).
Qed.

(** What is proved: as long as none of the [Global]s with the sheet [s] in the manager [mi] goes
    or changes, they all share one element. *)
Theorem global_one_copy_partial : forall y e page l a i mi m s k,
  arun y e (app_start page) l = Some a -> spares y e (app_start page) l mi s -> loads_nothing l ->
  ids_apart e page (w_draws (a_world a)) -> (forall n, forallb ident_char (e_draw e n) = true) ->
  e_wasm e = true -> e_document e = true ->
  carried a i = Some (mi, s) -> nth_error (w_mgrs (a_world a)) mi = Some m ->
  m_data m = None -> m_container m = Some k -> in_document page k -> plain_ident (m_prefix m) = true ->
  exists id, texts_of id (w_dom (a_world a)) = [to_style_str None s] /\ ~ In id (page_ids page)
    /\ forall cid c, nth_error (w_contents (a_world a)) cid = Some c ->
         c_mgr c = mi -> c_key c = global_key m s -> c_id c = id.
Proof.
  intros y e page l a i mi m s k R Sp NL Ap Pl W D C Hm Hd Hk Hi Hp.
  pose proof (good_start e page) as G0. pose proof (good_reached _ _ _ _ _ R) as G. rewrite (loads_nothing_ids _ NL) in G.
  destruct (guard_of _ _ _ _ _ _ _ G C) as (g & Hg & Es & Eh).
  destruct (guard_carried _ _ _ _ _ _ G Hg) as ((mj & m' & cid & c & H1 & H2 & H3 & H4 & H5 & H6) & _).
  rewrite Eh in H1. injection H1 as <-. rewrite Hm in H2. injection H2 as <-. rewrite Es in H5.
  pose proof (good_core _ _ _ _ _ _ G) as Co. destruct (gd_reach _ _ _ _ _ _ G) as (l0 & Re & El).
  pose proof (o_origin _ _ _ _ Co _ _ H4) as Or. destruct (c_hydrated c) eqn:Hy; [contradiction|].
  destruct Or as (n & Ln & Id). unfold made_id in Id. rewrite H5 in Id. cbn [k_global k_prefix global_key] in Id.
  destruct (o_content _ _ _ _ Co _ _ H4) as [_ Tx]. unfold text_of, style_text in Tx. rewrite H5, Hy in Tx. cbn in Tx.
  exists (c_id c). split; [|split].
  - rewrite <- Tx. eapply in_document_exactly_while_alive; eauto.
    + now apply ids_no_clash.
    + split; [exact Hy|]. exists m. now rewrite H6.
    + rewrite Id. apply plain_prefix_plain_id; auto.
    + left. exists (g_style g). exact H3.
  - intros I. destruct Ap as [_ Ap]. rewrite Id in I. apply (Ap _ I n Ln (m_prefix m ++ lit "-global")).
    unfold new_id, new_global. change (lit "-global-") with (lit "-global" ++ lit "-"). now rewrite <- !app_assoc.
  - intros cid' c' Hc' Hm' K'.
    destruct (steps_arun (all_but mi s) y e page l [] (app_start page) a G0 R (spares_fits _ _ _ _ _ _ _ _ G0 Sp)) as [St _].
    assert (cid = cid') as <-; [|congruence].
    eapply (all_registered_one e (a_world a) mi (global_key m s)); eauto.
    + eexists; eauto.
    + exists (g_manager g). exact Eh.
    + eapply all_registered_steps; [exact St|eexists; eapply good_core; exact G0| |].
      * unfold all_but. cbn. tauto.
      * intros x d Hx. destruct x; discriminate.
Qed.
Print Assumptions global_one_copy_partial.

(** ** C58: [Global] on the server *)

Definition gone_key (gone : list sheet) (k : key) : Prop := k_global k = true /\ In (k_ast k) gone.
(** What may be unregistered when [gone] is gone. *)
Definition may_go (mi : nat) (gone : list sheet) (mj : nat) (k : key) : Prop := mj <> mi \/ gone_key gone k.
Definition keys_apart (w : world) (mi : nat) : Prop :=
  forall i j c d, nth_error (w_contents w) i = Some c -> nth_error (w_contents w) j = Some d ->
  c_mgr c = mi -> c_mgr d = mi -> c_key c = c_key d -> i = j.
Definition orderly_inv (a : app) (mi : nat) (gone : list sheet) : Prop :=
  (forall k, ~ gone_key gone k -> all_registered (a_world a) mi k)
  /\ (mdead (a_world a) mi \/ keys_apart (a_world a) mi).

Lemma gone_dec gone k : {gone_key gone k} + {~ gone_key gone k}.
Proof.
  unfold gone_key. destruct (k_global k); [|right; intros [? _]; discriminate].
  assert (D : forall a b : sheet, {a = b} + {a <> b}).
  { intros a b. destruct (sheet_eqb a b) eqn:E; [left; now apply sheet_eqb_eq|right; intros ->].
    assert (sheet_eqb b b = true) by now apply sheet_eqb_eq. congruence. }
  destruct (in_dec D (k_ast k) gone); [left|right]; tauto.
Qed.
Lemma drop_contents y e g w : List.length (w_contents (drop_guard y e g w)) = List.length (w_contents w).
Proof.
  assert (St : forall o w, makes o = false -> List.length (w_contents (fst (step e w o))) = List.length (w_contents w)).
  { intros o w0 M. apply (quiet_base e w0) in M. apply (f_equal (@List.length _)) in M. now rewrite !map_length in M. }
  assert (Src : forall s w, List.length (w_contents (drop_source e s w)) = List.length (w_contents w)).
  { intros s0 w0. unfold drop_source. destruct (s_manager s0); auto. }
  unfold drop_guard, drop_value, drop_deps. destruct (y_key_first y); repeat (rewrite Src || rewrite St by reflexivity); auto.
Qed.

Lemma orderly_astep y e page ids a o a' mi gone :
  app_good e page ids a -> only (a_world a) (guards a) -> astep y e a o = Some a' ->
  match o with ARender _ _ _ | AUnmount _ => False | _ => globals_only o = true /\ unregisters o = false end ->
  (forall c s, o = AMount (fst c) (snd c) -> carried a' (List.length (a_globals a)) = Some (mi, s) -> ~ In s gone) ->
  orderly_inv a mi gone -> orderly_inv a' mi gone.
Proof.
  intros G O H Ok New [I1 I2]. pose proof (good_astep _ _ _ _ _ _ _ G H) as G'.
  assert (GO : globals_only o = true) by (destruct o; tauto). assert (U : unregisters o = false) by (destruct o; tauto).
  pose proof (only_astep _ _ _ _ _ _ _ G O GO H) as [_ O'].
  destruct (steps_astep (fun _ _ => False) _ _ _ _ _ _ _ G H U) as [St _]; [destruct o; cbn; tauto|].
  assert (Cd : cored e (a_world a)) by (eexists; eapply good_core; eauto).
  assert (Cd' : cored e (a_world a')) by (eexists; eapply good_core; eauto).
  assert (J1 : forall k, ~ gone_key gone k -> all_registered (a_world a') mi k).
  { intros k Nk. eapply all_registered_steps; eauto. }
  split; [exact J1|].
  destruct I2 as [D|Ap]; [left; eapply mdead_steps; eauto|].
  destruct (lt_dec mi (List.length (w_mgrs (a_world a')))) as [Lm|Lm].
  2: { right. intros i j c d Hc _ Mc _ _. exfalso. destruct Cd' as [ids' C']. destruct (o_content _ _ _ _ C' _ _ Hc) as [L _]. lia. }
  destruct (mlive_or_dead _ _ Lm) as [Lv|Dd]; [right|now left].
  (* a new content has no key that is gone *)
  assert (Fresh : forall i c, nth_error (w_contents (a_world a')) i = Some c -> c_mgr c = mi ->
            List.length (w_contents (a_world a)) <= i -> ~ gone_key gone (c_key c)).
  { intros i c Hc Mc L [Kg Ka]. destruct (new_registered _ _ _ _ St Cd i c Hc L) as [R|Dd]; auto.
    2: { rewrite Mc in Dd. destruct Lv as [h Lv]. destruct Dd as [_ Dd]. now elim (Dd h). }
    destruct (O' _ _ _ R Kg) as (g & Ig & Hg). apply guards_in in Ig. destruct Ig as [j Hj].
    destruct (guard_carried _ _ _ _ _ _ G' Hj) as ((mj & m & cid & c' & H1 & H2 & H3 & H4 & H5 & H6) & mk & C & H7).
    rewrite Hg in H3. injection H3 as <-. rewrite Hc in H4. injection H4 as <-. rewrite H1 in H7. injection H7 as <-.
    rewrite H5 in Ka. cbn in Ka. rewrite Mc in H6. subst mj.
    (* the guard is the new one *)
    destruct (le_lt_dec (List.length (a_globals a)) j) as [Lj|Lj].
    - assert (E : j = List.length (a_globals a) /\ exists x, o = AMount (fst x) (snd x)).
      { apply nth_lt in Hj. destruct o as [o|ctx src|? ? ?|?|src|ctx src]; try contradiction; cbn [astep] in H.
        - destruct (free _ _ && free _ _); [|discriminate].
          destruct (step e (a_world a) o) as [w [ | | | | | ]]; try discriminate; injection H as <-; cbn in Hj; lia.
        - destruct (render_global y e None ctx src a) as [[a1 g1]|] eqn:Rg; [|discriminate]. injection H as <-.
          destruct (good_render y e page _ None ctx src a a1 g1 (guards a) G (Permutation_refl _) Rg) as [_ Eg].
          cbn in Hj. rewrite app_length, Eg in Hj. cbn in Hj. split; [lia|]. now exists (ctx, src).
        - destruct (user_source a src) eqn:Us; [|discriminate].
          destruct (into_classes e src a) as [[a1 cl]|] eqn:E; [|discriminate]. injection H as <-. cbn [fst] in Hj.
          destruct (good_classes _ _ _ _ _ _ _ G Us E) as [_ Eg]. rewrite Eg in Hj. lia.
        - destruct (user_source a src) eqn:Us; [|discriminate].
          destruct (use_style e ctx src a) as [[a1 x]|] eqn:E; [|discriminate]. injection H as <-. cbn [fst] in Hj.
          destruct (good_use_style _ _ _ _ _ _ _ _ G Us E) as [_ Eg]. rewrite Eg in Hj. lia. }
      destruct E as [-> [x E]]. exact (New x _ E C Ka).
    - assert (E : nth_error (a_globals a) j = Some (Some g)).
      { destruct o as [o|ctx src|? ? ?|?|src|ctx src]; try contradiction; cbn [astep] in H.
        - destruct (free _ _ && free _ _); [|discriminate].
          destruct (step e (a_world a) o) as [w [ | | | | | ]]; try discriminate; injection H as <-; exact Hj.
        - destruct (render_global y e None ctx src a) as [[a1 g1]|] eqn:Rg; [|discriminate]. injection H as <-.
          destruct (good_render y e page _ None ctx src a a1 g1 (guards a) G (Permutation_refl _) Rg) as [_ Eg].
          cbn in Hj. rewrite Eg, nth_error_app1 in Hj by exact Lj. exact Hj.
        - destruct (user_source a src) eqn:Us; [|discriminate].
          destruct (into_classes e src a) as [[a1 cl]|] eqn:E; [|discriminate]. injection H as <-. cbn [fst] in Hj.
          destruct (good_classes _ _ _ _ _ _ _ G Us E) as [_ Eg]. now rewrite Eg in Hj.
        - destruct (user_source a src) eqn:Us; [|discriminate].
          destruct (use_style e ctx src a) as [[a1 x]|] eqn:E; [|discriminate]. injection H as <-. cbn [fst] in Hj.
          destruct (good_use_style _ _ _ _ _ _ _ _ G Us E) as [_ Eg]. now rewrite Eg in Hj. }
      destruct (guard_carried _ _ _ _ _ _ G E) as ((_ & _ & cid & c0 & _ & _ & K3 & K4 & _) & _).
      pose proof (passes_same _ _ _ _ _ (handles_steps _ _ _ _ St) K3 Hg) as ->. apply nth_lt in K4. lia. }
  intros i j c d Hc Hd Mc Md Ek.
  destruct (gone_dec gone (c_key c)) as [Gk|Gk].
  - destruct (le_lt_dec (List.length (w_contents (a_world a))) i) as [Li|Li]; [now elim (Fresh i c)|].
    destruct (le_lt_dec (List.length (w_contents (a_world a))) j) as [Lj|Lj]; [elim (Fresh j d); auto; now rewrite <- Ek|].
    destruct (old_content _ _ _ _ _ _ St Hc Li) as (c0 & Hc0 & A1 & A2). destruct (old_content _ _ _ _ _ _ St Hd Lj) as (d0 & Hd0 & B1 & B2).
    apply (Ap i j c0 d0); auto; congruence.
  - eapply (all_registered_one e (a_world a') mi (c_key c)); eauto.
Qed.

Lemma orderly_unmount y e page ids a i a' mi gone :
  app_good e page ids a -> astep y e a (AUnmount i) = Some a' ->
  orderly_inv a mi gone ->
  orderly_inv a' mi match carried a i with
                    | Some (mj, s) => if Nat.eqb mj mi then s :: gone else gone
                    | None => gone
                    end.
Proof.
  intros G H [I1 I2]. cbn [astep] in H. destruct (nth_error (a_globals a) i) as [[g|]|] eqn:Hg; try discriminate. injection H as <-.
  destruct (guard_carried _ _ _ _ _ _ G Hg) as (Ok & mj & C & Hm). rewrite C.
  set (gone' := if Nat.eqb mj mi then _ else _).
  assert (Inc : incl gone gone') by (unfold gone'; destruct (Nat.eqb mj mi); [apply incl_tl|]; apply incl_refl).
  assert (Cd : cored e (a_world a)) by (eexists; eapply good_core; eauto).
  cbn [a_world with_globals with_world].
  assert (St : stepsT (may_go mi gone') e (a_world a) (drop_guard y e g (a_world a))).
  { apply steps_drop_guard; auto. destruct Ok as (mk & m & _ & _ & K1 & K2 & _). rewrite Hm in K1. injection K1 as <-.
    exists mj, m. repeat split; auto. unfold may_go, gone_key, gone'. destruct (Nat.eqb_spec mj mi); [right|now left]. cbn. auto. }
  split.
  - intros k Nk. eapply all_registered_steps; [exact St|exact Cd| |].
    + intros [?|?]; auto.
    + apply I1. intros [K1 K2]. apply Nk. split; auto.
  - destruct I2 as [D|Ap]; [left; eapply mdead_steps; eauto|right].
    intros x z c d Hc Hd Mc Md Ek. pose proof (nth_lt _ _ _ Hc) as Lc. pose proof (nth_lt _ _ _ Hd) as Ld.
    cbn [a_world with_globals with_world] in Lc, Ld. rewrite drop_contents in Lc, Ld.
    destruct (old_content _ _ _ _ _ _ St Hc Lc) as (c0 & Hc0 & A1 & A2). destruct (old_content _ _ _ _ _ _ St Hd Ld) as (d0 & Hd0 & B1 & B2).
    apply (Ap x z c0 d0); auto; congruence.
Qed.

Lemma orderly_arun y e page mi l : forall ids a a' gone,
  app_good e page ids a -> only (a_world a) (guards a) -> arun y e a l = Some a' -> orderly y e a l mi gone ->
  orderly_inv a mi gone -> exists gone', orderly_inv a' mi gone'.
Proof.
  induction l as [|o l IH]; intros ids a a' gone G O H Or I; cbn [arun orderly] in *; [injection H as <-; eauto|].
  destruct Or as [Ok Or]. destruct (astep y e a o) as [a1|] eqn:S; [|discriminate].
  assert (GO : globals_only o = true) by (destruct o; try tauto; reflexivity).
  pose proof (good_astep _ _ _ _ _ _ _ G S) as G1. pose proof (only_astep _ _ _ _ _ _ _ G O GO S) as O1.
  destruct o as [o|ctx src|i ctx src|i|src|ctx src]; try contradiction.
  - eapply (IH _ a1 a'); eauto. apply (orderly_astep y e page ids a _ a1 mi gone G O S); auto. intros x s E. discriminate.
  - destruct Or as [Nw Or]. eapply (IH _ a1 a'); eauto. apply (orderly_astep y e page ids a _ a1 mi gone G O S); auto.
  - eapply (IH _ a1 a'); eauto. eapply orderly_unmount; eauto.
  - eapply (IH _ a1 a'); eauto. apply (orderly_astep y e page ids a _ a1 mi gone G O S); auto. intros x s E. discriminate.
  - eapply (IH _ a1 a'); eauto. apply (orderly_astep y e page ids a _ a1 mi gone G O S); auto. intros x s E. discriminate.
Qed.

(** What is proved: what an orderly server collects, a client's fresh manager loads. *)
Theorem global_server_data_loads_partial : forall y e page l a h mi d ec pc lc wc hc mc,
  arun y e (app_start page) l = Some a -> orderly y e (app_start page) l mi [] ->
  handle_of (w_mhandles (a_world a)) h = Some mi ->
  snd (step e (a_world a) (ORead h)) = RData d ->
  reaches ec pc lc wc -> handle_of (w_mhandles wc) hc = Some mc ->
  (forall k cid, ~ registered wc mc k cid) ->
  exists w1, step ec wc (OLoad hc d) = (w1, RDone)
    /\ (forall k, (exists cid, registered w1 mc k cid) <-> In k (map r_key d)).
Proof.
  intros y e page l a h mi d ec pc lc wc hc mc R Or Hh Rd Rc Hc Nr.
  pose proof (good_start e page) as G0. pose proof (good_reached _ _ _ _ _ R) as G.
  assert (O0 : only (a_world (app_start page)) (guards (app_start page))).
  { split; [|intros mj k cid (m & Hm & _); now destruct mj in Hm]. cbn. intros x cid H0. unfold handle_of in H0. now destruct x. }
  destruct (orderly_arun y e page mi l [] (app_start page) a [] G0 O0 R Or) as [gone [_ Ap]].
  { split; [intros k _ cid c Hx; now destruct cid|right; intros i j c x Hx; now destruct i]. }
  destruct Ap as [[_ D]|Ap]; [now elim (D h)|].
  assert (ND : NoDup (map r_key d)).
  { pose proof (good_core _ _ _ _ _ _ G) as Co. destruct (core_manager _ _ _ _ _ _ Co Hh) as (m & Hm & Hs).
    cbn [step] in Rd. rewrite Hh in Rd. cbn [snd] in Rd. unfold Manager.read_data in Rd. rewrite Hm in Rd.
    injection Rd as <-. destruct (m_data m) as [l0|] eqn:Hd; [|constructor].
    rewrite (o_data _ _ _ _ Co _ _ _ Hm Hd). rewrite map_map. cbn. change (fun x => c_key x) with c_key.
    assert (Gn : forall cs off, (forall i c, nth_error cs i = Some c -> nth_error (w_contents (a_world a)) (off + i) = Some c) ->
              NoDup (map c_key (filter (made_by mi) cs))).
    { induction cs as [|c cs IH]; intros off H; [constructor|].
      assert (H' : forall i x, nth_error cs i = Some x -> nth_error (w_contents (a_world a)) (S off + i) = Some x).
      { intros i x Hi. replace (S off + i) with (off + S i) by lia. now apply H. }
      cbn [filter]. destruct (made_by mi c) eqn:M; [|now apply (IH (S off))].
      cbn [map]. constructor; [|now apply (IH (S off))].
      intros I. apply in_map_iff in I as (x & K & I). apply filter_In in I as [I M'].
      apply In_nth_error in I as [i Hi].
      unfold made_by in M, M'. apply andb_prop in M as [_ M], M' as [_ M'].
      apply Nat.eqb_eq in M, M'.
      assert (Q : off + 0 = S off + i) by (apply (Ap _ _ c x); [now apply H|now apply H'|auto|auto|congruence]).
      lia. }
    apply (Gn _ 0). auto. }
  destruct (style_data_loads_partial ec pc lc wc hc mc d Rc Hc Nr ND) as (w1 & S1 & K1 & _). eauto.
Qed.
Print Assumptions global_server_data_loads_partial.

(** A server page: two [Global]s with one CSS at the same time, a scoped style, a third [Global]
    with another CSS after the first is gone. *)
Definition server_env : env := mk_env false false None false counter_entropy.
Definition server_ops : list aop :=
  [ AOp (OBuild (lit "app") None true true);
    AMount (Some 0) (demo_source "red"); AMount (Some 0) (demo_source "red");
    AUseStyle (Some 0) (demo_source "red");
    AUnmount 0; AMount (Some 0) (demo_source "blue"); AUnmount 1; AUnmount 2 ].
Fixpoint orderlyb (y : yew) (e : env) (a : app) (l : list aop) (mi : nat) (gone : list sheet) : bool :=
  match l with
  | [] => true
  | o :: l' =>
      match o with ARender _ _ _ => false | _ => globals_only o && negb (unregisters o) end
      && match astep y e a o with
         | None => true
         | Some a1 =>
             match o with
             | AMount _ _ =>
                 match carried a1 (List.length (a_globals a)) with
                 | Some (mj, s) => negb (Nat.eqb mj mi && existsb (sheet_eqb s) gone)
                 | None => true
                 end && orderlyb y e a1 l' mi gone
             | AUnmount i =>
                 orderlyb y e a1 l' mi
                   match carried a i with
                   | Some (mj, s) => if Nat.eqb mj mi then s :: gone else gone
                   | None => gone
                   end
             | _ => orderlyb y e a1 l' mi gone
             end
         end
  end.
Lemma orderlyb_ok y e mi l : forall a gone, orderlyb y e a l mi gone = true -> orderly y e a l mi gone.
Proof.
  induction l as [|o l IH]; intros a gone H; cbn [orderly orderlyb] in *; auto.
  apply andb_prop in H. destruct H as [H1 H2]. split.
  - destruct o; try discriminate; apply andb_prop in H1; destruct H1 as [A B]; apply negb_true_iff in B; auto.
  - destruct (astep y e a o) as [a1|]; auto. destruct o; auto. apply andb_prop in H2. destruct H2 as [A B].
    split; auto. intros s E. rewrite E, Nat.eqb_refl in A. cbn in A. apply negb_true_iff in A. intros I.
    assert (K : existsb (sheet_eqb s) gone = true) by (apply existsb_exists; exists s; split; auto; now apply sheet_eqb_eq). congruence.
Qed.
Example server_data_ex : forall y, exists a d,
  arun y server_env (app_start []) server_ops = Some a /\ orderly y server_env (app_start []) server_ops 0 []
  /\ handle_of (w_mhandles (a_world a)) 0 = Some 0
  /\ snd (step server_env (a_world a) (ORead 0)) = RData d
  /\ map r_id d = [lit "app-global-style-0"; lit "app-style-1"; lit "app-global-style-2"].
Proof.
  intros [[|] [|]]; do 2 eexists; (split; [vm_compute; reflexivity|]); (split; [apply orderlyb_ok; now vm_compute|]);
    (split; [reflexivity|]); (split; [reflexivity|]); now vm_compute.
Qed.
(** A client's fresh manager. *)
Example server_data_client_ex : forall y a,
  arun y server_env (app_start []) server_ops = Some a ->
  reaches demo_env demo_page [OBuild (lit "app") (Some 1) true false]
    (fst (run demo_env (start demo_page) [OBuild (lit "app") (Some 1) true false]))
  /\ (forall k cid, ~ registered (fst (run demo_env (start demo_page) [OBuild (lit "app") (Some 1) true false])) 0 k cid).
Proof.
  intros y a _. split; [eexists; apply surjective_pairing|]. intros k cid (m & Hm & I). cbn in Hm. injection Hm as <-. contradiction.
Qed.

(** For C56: three [Global]s with one CSS, one of them rendered again, others come and go. *)
Definition spared_ops : list aop :=
  [ AOp (OBuild (lit "app") (Some 1) true false);
    AMount (Some 0) (demo_source "red");
    AMount None (demo_source "red");
    AMount (Some 0) (demo_source "red");
    AMount (Some 0) (demo_source "blue");
    ARender 0 (Some 0) (demo_source "red");
    ARender 3 (Some 0) (demo_source "green");
    AUnmount 1; AUnmount 3;
    AMount (Some 0) (demo_source "red") ].
Definition same_propsb (a : app) (i : nat) (ctx : option nat) (src : source) (mi : nat) : bool :=
  match (match ctx with Some h => Some h | None => a_default a end) with
  | Some h => match handle_of (w_mhandles (a_world a)) h with Some mj => Nat.eqb mj mi | None => false end
  | None => false
  end
  && match nth_error (a_globals a) i with
     | Some (Some g) => source_eqb (a_world a) (g_source g) src
     | _ => false
     end.
Definition carriesb (a : app) (i mi : nat) (s : sheet) : bool :=
  match carried a i with Some (mj, s') => Nat.eqb mj mi && sheet_eqb s' s | None => false end.
Fixpoint sparesb (y : yew) (e : env) (a : app) (l : list aop) (mi : nat) (s : sheet) : bool :=
  match l with
  | [] => true
  | o :: l' =>
      match o with
      | AUnmount i => negb (carriesb a i mi s)
      | ARender i ctx src => negb (carriesb a i mi s) || same_propsb a i ctx src mi
      | _ => negb (unregisters o)
      end
      && match astep y e a o with Some a1 => sparesb y e a1 l' mi s | None => true end
  end.
Lemma sparesb_ok y e mi s l : forall a, sparesb y e a l mi s = true -> spares y e a l mi s.
Proof.
  assert (C : forall a i, carried a i = Some (mi, s) -> carriesb a i mi s = true).
  { intros a i E. unfold carriesb. rewrite E, Nat.eqb_refl. now apply sheet_eqb_eq. }
  induction l as [|o l IH]; intros a H; cbn [spares sparesb] in *; auto. apply andb_prop in H. destruct H as [H1 H2]. split.
  - destruct o as [o|ctx src|i ctx src|i|src|ctx src]; try (now apply negb_true_iff in H1).
    + intros E. rewrite (C _ _ E) in H1. cbn in H1. unfold same_propsb in H1. apply andb_prop in H1. destruct H1 as [A B]. split.
      * destruct ctx as [h|]; cbn.
        -- destruct (handle_of _ h); [|discriminate]. apply Nat.eqb_eq in A. congruence.
        -- destruct (a_default a) as [d|]; [|discriminate]. exists d. split; auto.
           destruct (handle_of _ d); [|discriminate]. apply Nat.eqb_eq in A. congruence.
      * destruct (nth_error (a_globals a) i) as [[g|]|]; try discriminate. eauto.
    + intros E. rewrite (C _ _ E) in H1. discriminate.
  - destruct (astep y e a o); auto.
Qed.
Example global_one_copy_ex : forall y, exists a,
  arun y demo_env (app_start demo_page) spared_ops = Some a
  /\ spares y demo_env (app_start demo_page) spared_ops 0 (demo_sheet "red")
  /\ map (carried a) [0; 1; 2; 3; 4]
     = [Some (0, demo_sheet "red"); None; Some (0, demo_sheet "red"); None; Some (0, demo_sheet "red")]
  /\ copies (to_style_str None (demo_sheet "red")) (w_dom (a_world a)) = 1.
Proof.
  intros [[|] [|]]; eexists; (split; [vm_compute; reflexivity|]); (split; [apply sparesb_ok; now vm_compute|]);
    (split; now vm_compute).
Qed.

(** ** C57: the manager of a source given to [Global] *)

(** What is proved: a [Global] (as [use_style], [use_style_context]) registers in the manager of
    its context, so in the attached one if that is the same. *)
Theorem global_in_source_manager_partial : forall y e page l a ctx src a' mi,
  arun y e (app_start page) l = Some a -> astep y e a (AMount ctx src) = Some a' ->
  source_manager_is a a' src mi -> context_is a a' ctx mi ->
  carried a' (List.length (a_globals a)) = Some (mi, s_sheet src)
  /\ exists m cid, nth_error (w_mgrs (a_world a')) mi = Some m
       /\ registered (a_world a') mi (global_key m (s_sheet src)) cid.
Proof.
  intros y e page l a ctx src a' mi R S _ C. pose proof (global_carries _ _ _ _ _ _ _ (List.length (a_globals a)) R S) as K.
  cbn in K. rewrite Nat.eqb_refl in K. destruct K as (mi' & C' & K).
  assert (mi' = mi) as ->.
  { destruct ctx as [d|]; cbn in C, C'; [congruence|]. destruct C as (d & X1 & X2). destruct C' as (d' & Y1 & Y2). congruence. }
  split; [exact K|]. pose proof (good_reached _ _ _ _ _ R) as G. pose proof (good_astep _ _ _ _ _ _ _ G S) as G'.
  destruct (guard_of _ _ _ _ _ _ _ G' K) as (g & Hg & Es & Hm').
  destruct (guard_carried _ _ _ _ _ _ G' Hg) as ((mk & m & cid & c & Q1 & Q2 & Q3 & Q4 & Q5 & Q6) & _).
  rewrite Hm' in Q1. injection Q1 as <-. exists m, cid. split; [exact Q2|].
  cbn [astep] in S. destruct (render_global y e None ctx src a) as [[a1 g1]|] eqn:Rg; [|discriminate]. injection S as <-.
  cbn [a_world with_globals a_globals] in *. unfold render_global in Rg.
  destruct (context_manager e ctx a) as [[a2 h]|] eqn:E; [|discriminate].
  destruct (good_context e page _ _ _ _ _ G E) as [G1 Eg].
  destruct (clone_source e src (a_world a2)) as [[w1 src1]|] eqn:Ec; [|discriminate].
  destruct (good_clone_source e page _ _ _ _ _ _ _ G1 Ec) as [G2 _].
  destruct (memo y e None h src1 w1) as [[w2 g2]|] eqn:Em; [|discriminate]. injection Rg as <- <-.
  cbn [a_world with_world a_globals] in *. rewrite Eg, nth_app_new in Hg. injection Hg as <-.
  cbn [memo] in Em. unfold new_guard in Em. destruct (manager_of w1 h) as [m1|]; [|discriminate].
  destruct (step e w1 (OCreate h (global_key m1 (s_sheet src1)))) as [w3 [x| | | | |]] eqn:S; try discriminate.
  injection Em as <- <-. cbn [g_style g_manager g_source] in *.
  destruct (create_result e _ _ _ _ _ _ (good_core _ _ _ _ _ _ G2) S) as (_ & mj & cid' & c' & A1 & A2 & _ & A3 & A4 & A5 & A6).
  rewrite Q3 in A2. injection A2 as <-. rewrite Q4 in A3. injection A3 as <-. rewrite Es in Q5. congruence.
Qed.
Print Assumptions global_in_source_manager_partial.

Example global_in_source_manager_ex : forall y, exists a a',
  arun y demo_env (app_start demo_page) [AOp (OBuild (lit "app") (Some 1) true false); AOp (OCloneManager 0)] = Some a
  /\ astep y demo_env a (AMount (Some 0) (mk_source (demo_sheet "red") (Some 1) None)) = Some a'
  /\ source_manager_is a a' (mk_source (demo_sheet "red") (Some 1) None) 0 /\ context_is a a' (Some 0) 0.
Proof.
  intros [[|] [|]]; do 2 eexists; (split; [vm_compute; reflexivity|]); (split; [vm_compute; reflexivity|]); now vm_compute.
Qed.

(** ** C59: a class handed out has its style in the document *)

(** What is proved: it has, if the manager outlives the call, as the default one always does. *)
Theorem source_style_stays_partial : forall y e page l a src a' cl mi m k,
  arun y e (app_start page) l = Some a -> user_source a src = true ->
  into_classes e src a = Some (a', cl) ->
  source_manager_is a a' src mi -> mlive (a_world a') mi -> loads_nothing l ->
  ids_apart e page (w_draws (a_world a')) -> (forall n, forallb ident_char (e_draw e n) = true) ->
  e_wasm e = true -> e_document e = true ->
  nth_error (w_mgrs (a_world a')) mi = Some m ->
  m_data m = None -> m_container m = Some k -> in_document page k -> plain_ident (m_prefix m) = true ->
  exists class, In class cl
    /\ texts_of class (w_dom (a_world a')) = [to_style_str (Some class) (s_sheet src)].
Proof.
  intros y e page l a src a' cl mi m k R U H C Lv NL Ap Pl W D Hm Hd Hk Hi Hp.
  destruct (source_classes _ _ _ _ _ _ _ _ R U H) as (mi' & m' & cid & c & C' & Hm' & Hc & Ek & Em & -> & Reg).
  assert (mi' = mi) as ->.
  { unfold source_manager_is in C, C'. destruct (s_manager src); cbn in C, C'; [congruence|].
    destruct C as (d & C1 & C3). destruct C' as (d' & C1' & C3'). congruence. }
  rewrite Hm in Hm'. injection Hm' as <-. exists (c_id c). split; [now left|].
  apply good_reached in R. rewrite (loads_nothing_ids _ NL) in R. destruct (good_classes _ _ _ _ _ _ _ R U H) as [G _].
  pose proof (good_core _ _ _ _ _ _ G) as Co. destruct (gd_reach _ _ _ _ _ _ G) as (l0 & Re & El).
  pose proof (o_origin _ _ _ _ Co _ _ Hc) as Or. destruct (c_hydrated c) eqn:Hy; [contradiction|].
  destruct Or as (n & Ln & Id). unfold made_id in Id. rewrite Ek in Id. cbn [k_global k_prefix style_key] in Id.
  destruct (o_content _ _ _ _ Co _ _ Hc) as [_ Tx]. unfold text_of, style_text in Tx. rewrite Ek, Hy in Tx. cbn in Tx.
  rewrite <- Tx. eapply in_document_exactly_while_alive; eauto.
  - now apply ids_no_clash.
  - split; [exact Hy|]. exists m. now rewrite Em.
  - rewrite Id. apply plain_prefix_plain_id; auto.
  - right. exists mi, (style_key (m_prefix m) (s_sheet src)). auto.
Qed.
Print Assumptions source_style_stays_partial.

(** Exactly when: after the call the manager lives on, or user code holds a handle on that style.
    Otherwise the class is handed out and its style is gone from the document. *)
Theorem source_style_stays_iff : forall y e page l a src a' cl mi m k,
  arun y e (app_start page) l = Some a -> user_source a src = true ->
  into_classes e src a = Some (a', cl) ->
  source_manager_is a a' src mi -> loads_nothing l ->
  ids_apart e page (w_draws (a_world a')) -> (forall n, forallb ident_char (e_draw e n) = true) ->
  e_wasm e = true -> e_document e = true ->
  nth_error (w_mgrs (a_world a')) mi = Some m ->
  m_data m = None -> m_container m = Some k -> in_document page k -> plain_ident (m_prefix m) = true ->
  exists class, In class cl
    /\ (texts_of class (w_dom (a_world a')) = [to_style_str (Some class) (s_sheet src)]
        <-> mlive (a_world a') mi \/ exists h, get_id (a_world a') h = Some class)
    /\ (texts_of class (w_dom (a_world a')) = []
        <-> ~ mlive (a_world a') mi /\ forall h, get_id (a_world a') h <> Some class).
Proof.
  intros y e page l a src a' cl mi m k R U H C NL Ap Pl W D Hm Hd Hk Hi Hp.
  destruct (source_classes _ _ _ _ _ _ _ _ R U H) as (mi' & m' & cid & c & C' & Hm' & Hc & Ek & Em & -> & Reg).
  assert (mi' = mi) as ->.
  { unfold source_manager_is in C, C'. destruct (s_manager src); cbn in C, C'; [congruence|].
    destruct C as (d & C1 & C3). destruct C' as (d' & C1' & C3'). congruence. }
  rewrite Hm in Hm'. injection Hm' as <-. exists (c_id c). split; [now left|].
  apply good_reached in R. rewrite (loads_nothing_ids _ NL) in R. destruct (good_classes _ _ _ _ _ _ _ R U H) as [G _].
  pose proof (good_core _ _ _ _ _ _ G) as Co. destruct (gd_reach _ _ _ _ _ _ G) as (l0 & Re & El).
  pose proof (o_origin _ _ _ _ Co _ _ Hc) as Or. destruct (c_hydrated c) eqn:Hy; [contradiction|].
  destruct Or as (n & Ln & Id). unfold made_id in Id. rewrite Ek in Id. cbn [k_global k_prefix style_key] in Id.
  destruct (o_content _ _ _ _ Co _ _ Hc) as [_ Tx]. unfold text_of, style_text in Tx. rewrite Ek, Hy in Tx. cbn in Tx.
  rewrite <- Tx. assert (NC : no_clash e page l0 (w_draws (a_world a'))) by now apply ids_no_clash.
  assert (Q : plain_ident (c_id c) = true) by (rewrite Id; apply plain_prefix_plain_id; auto).
  assert (Mt : mounts_into (a_world a') c k) by (split; [exact Hy|]; exists m; now rewrite Em).
  destruct (in_document_exactly_while_alive e page l0 _ cid c k Re NC W D Hc Mt Hi Q) as [T1 T2].
  pose proof (reaches_inv _ _ _ _ Re NC) as Iv. destruct (i_ids _ _ _ _ _ Iv) as [_ Un].
  assert (A1 : mlive (a_world a') mi \/ (exists h, get_id (a_world a') h = Some (c_id c)) -> alive (a_world a') cid).
  { intros [Lv|[h Hh]].
    - right. exists mi, (style_key (m_prefix m) (s_sheet src)). auto.
    - left. exists h. unfold get_id, handle_content in Hh. destruct (handle_of (w_handles (a_world a')) h) as [j|]; [|discriminate].
      destruct (nth_error (w_contents (a_world a')) j) as [d|] eqn:Hj; [|discriminate]. injection Hh as Hh.
      destruct (Nat.eq_dec cid j) as [->|N]; [reflexivity|]. exfalso. apply (Un cid j c d Hc Hj N Hy). now symmetry. }
  assert (A2 : alive (a_world a') cid -> mlive (a_world a') mi \/ exists h, get_id (a_world a') h = Some (c_id c)).
  { intros [[h Hh]|(mj & q & m2 & Hm2 & I2)].
    - right. exists h. unfold get_id, handle_content. now rewrite Hh, Hc.
    - left. destruct (o_reg _ _ _ _ Co _ _ Hm2) as (_ & Z & Rc). destruct (Rc _ _ I2) as (c2 & Hc2 & _ & E2).
      rewrite Hc in Hc2. injection Hc2 as <-. rewrite Em in E2. subst mj. rewrite Hm in Hm2. injection Hm2 as <-.
      destruct (mlive_or_dead (a_world a') mi) as [Lv|[_ Dd]]; [now apply nth_lt in Hm|exact Lv|]. exfalso.
      destruct (Nat.eq_dec (m_strong m) 0) as [E0|E0]; [rewrite (Z E0) in I2; destruct I2|].
      pose proof (o_mcounted _ _ _ _ Co mi) as M. unfold mstrong_of in M. rewrite Hm in M.
      assert (P : In mi (live (w_mhandles (a_world a')))) by (apply cnt_pos; rewrite <- M; lia).
      unfold live in P. apply in_flat_map in P. destruct P as ([x|] & P1 & P2); [|destruct P2]. destruct P2 as [->|[]].
      apply In_nth_error in P1. destruct P1 as [h P1]. apply (Dd h). unfold handle_of. now rewrite P1. }
  split; split.
  - intros E. apply A2. destruct (mlive_or_dead (a_world a') mi) as [Lv|[_ Dd]]; [now apply nth_lt in Hm|apply A1; now left|].
    destruct (list_eq_dec (list_eq_dec N.eq_dec) (texts_of (c_id c) (w_dom (a_world a'))) []) as [E0|E0]; [rewrite E in E0; discriminate|].
    destruct (in_dec (fun a b : option nat => ltac:(decide equality; apply Nat.eq_dec)) (Some cid) (w_handles (a_world a'))) as [I|N].
    + left. apply In_nth_error in I. destruct I as [h I]. exists h. unfold handle_of. now rewrite I.
    + exfalso. apply E0. apply T2. intros A. destruct (A2 A) as [[h Lv]|[h Hh]]; [now apply (Dd h)|].
      destruct A1 as [[h' Hh']|(mj & q & m2 & Hm2 & I2)]; [right; now exists h| |].
      * apply N. unfold handle_of in Hh'. destruct (nth_error (w_handles (a_world a')) h') as [[x|]|] eqn:Ex; try discriminate.
        injection Hh' as ->. eapply nth_error_In; exact Ex.
      * destruct (A2 A) as [[h2 Lv]|[h2 Hh2]]; [now apply (Dd h2)|]. apply N. clear -Hh2 Un Hc Hy.
        unfold get_id, handle_content, handle_of in Hh2. destruct (nth_error (w_handles (a_world a')) h2) as [[j|]|] eqn:Ex; try discriminate.
        destruct (nth_error (w_contents (a_world a')) j) as [d|] eqn:Hj; [|discriminate]. injection Hh2 as Hh2.
        destruct (Nat.eq_dec cid j) as [->|N]; [eapply nth_error_In; exact Ex|]. exfalso. apply (Un cid j c d Hc Hj N Hy). now symmetry.
  - intros Q'. apply T1, A1, Q'.
  - intros E. split.
    + intros Lv. rewrite T1 in E by (apply A1; now left). discriminate.
    + intros h Hh. rewrite T1 in E by (apply A1; right; now exists h). discriminate.
  - intros [N1 N2]. apply T2. intros A. destruct (A2 A) as [Lv|[h Hh]]; [now apply N1|now apply (N2 h)].
Qed.
Print Assumptions source_style_stays_iff.

(** A source holding the only handle on its manager: the style goes, unless user code made a
    handle on it before. *)
Example source_style_stays_iff_ex : forall y, exists a a' b b',
  arun y demo_env (app_start demo_page) [AOp (OBuild (lit "app") (Some 1) true false)] = Some a
  /\ into_classes demo_env (mk_source (demo_sheet "red") (Some 0) None) a = Some (a', [lit "app-style-0"])
  /\ texts_of (lit "app-style-0") (w_dom (a_world a')) = []
  /\ arun y demo_env (app_start demo_page) [AOp (OBuild (lit "app") (Some 1) true false);
       AOp (OCreate 0 (style_key (lit "app") (demo_sheet "red")))] = Some b
  /\ into_classes demo_env (mk_source (demo_sheet "red") (Some 0) None) b = Some (b', [lit "app-style-0"])
  /\ get_id (a_world b') 0 = Some (lit "app-style-0")
  /\ texts_of (lit "app-style-0") (w_dom (a_world b')) = [to_style_str (Some (lit "app-style-0")) (demo_sheet "red")].
Proof.
  intros [[|] [|]]; do 4 eexists; do 6 (split; [vm_compute; reflexivity|]); vm_compute; reflexivity.
Qed.

Example source_style_stays_ex : forall y, exists a a' cl m,
  arun y demo_env (app_start demo_page) demo_app_ops = Some a
  /\ user_source a (demo_source "red") = true /\ into_classes demo_env (demo_source "red") a = Some (a', cl)
  /\ source_manager_is a a' (demo_source "red") 1 /\ mlive (a_world a') 1
  /\ nth_error (w_mgrs (a_world a')) 1 = Some m /\ m_data m = None /\ m_container m = Some 0
  /\ in_document demo_page 0 /\ plain_ident (m_prefix m) = true.
Proof.
  intros [[|] [|]]; do 4 eexists; (split; [vm_compute; reflexivity|]); (split; [now vm_compute|]); (split; [vm_compute; reflexivity|]);
    (split; [eexists; split; now vm_compute|]); (split; [first [exists 0; now vm_compute|exists 1; now vm_compute|exists 2; now vm_compute|exists 3; now vm_compute]|]); (split; [vm_compute; reflexivity|]);
    (split; [reflexivity|]); (split; [reflexivity|]); (split; [eexists; now split|]); now vm_compute.
Qed.
