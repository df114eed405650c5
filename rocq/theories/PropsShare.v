(** * PropsShare: exactly which [Global]s share an element (C56), and which markup lists the records
    (C50). *)

From Coq Require Import String Ascii List NArith Bool Arith Lia Permutation.
From Verif Require Import Str StrFacts Ast Render CssParser Ids IdFacts Manager SpecManager
  ManagerFacts ManagerInv ManagerSteps ManagerCore ManagerProps Hydrate StaticData SpecHydrate Hooks SpecHooks
  HookFacts HookOnly HookTame HookOnce PropsManager PropsHooks PropsHydrate PropsGlobal GoneFacts.
From Verif Require ComponentFacts.
Import ListNotations.
Local Open Scope list_scope.
Local Opaque parse to_style_str.

(** ** C56 *)

(** The id of the style element of component [i]. *)
Definition shown_id (a : app) (i : nat) : option str :=
  match nth_error (a_globals a) i with
  | Some (Some g) => get_id (a_world a) (g_style g)
  | _ => None
  end.

(** Nothing is rendered again, and user code loads and unregisters nothing. *)
Definition steady (o : aop) : Prop :=
  match o with
  | ARender _ _ _ | AOp (OUnregister _) | AOp (OLoad _ _) => False
  | _ => True
  end.
Lemma steady_unregisters o : steady o -> unregisters o = false.
Proof. destruct o as [[]| | | | |]; cbn; tauto. Qed.

(** At some point of the program a [Global] with the CSS [s] in the manager [mi] is unmounted. *)
Definition one_goes (y : yew) (e : env) (a : app) (l : list aop) (mi : nat) (s : sheet) : Prop :=
  exists l1 x l2 a1, l = l1 ++ AUnmount x :: l2 /\ arun y e a l1 = Some a1 /\ carried a1 x = Some (mi, s).

Lemma sheet_carried_dec (c : option (nat * sheet)) mi s : {c = Some (mi, s)} + {c <> Some (mi, s)}.
Proof.
  destruct c as [[mj s']|]; [|right; discriminate]. destruct (Nat.eq_dec mj mi) as [->|N]; [|right; congruence].
  destruct (sheet_eqb s' s) eqn:E; [left; apply sheet_eqb_eq in E; now subst|right].
  intros [= ->]. assert (sheet_eqb s s = true) by now apply sheet_eqb_eq. congruence.
Qed.

Lemma spares_or_goes y e mi s l : forall a a2, arun y e a l = Some a2 -> Forall steady l ->
  spares y e a l mi s \/ one_goes y e a l mi s.
Proof.
  induction l as [|o l IH]; intros a a2 R F; [now left|]. cbn [arun] in R.
  destruct (astep y e a o) as [a1|] eqn:S; [|discriminate]. inversion F as [|? ? F1 F2]; subst.
  assert (Later : spares y e a1 l mi s \/ one_goes y e a (o :: l) mi s).
  { destruct (IH a1 a2 R F2) as [H|(l1 & x & l2 & b & -> & H1 & H2)]; [now left|right].
    exists (o :: l1), x, l2, b. split; [reflexivity|]. split; [|exact H2]. cbn [arun]. now rewrite S. }
  destruct Later as [H|H]; [|now right]. cbn [spares]. rewrite S.
  destruct o as [o|ctx src|i ctx src|i|src|ctx src]; try (left; split; [now apply steady_unregisters|exact H]).
  - destruct F1.
  - destruct (sheet_carried_dec (carried a i) mi s) as [E|N]; [right|left; now split].
    exists [], i, l, a. now split.
Qed.

Lemma one_goes_spares y e mi s a l : one_goes y e a l mi s -> (exists a2, arun y e a l = Some a2) -> ~ spares y e a l mi s.
Proof.
  intros (l1 & x & l2 & a1 & -> & R & C). revert a R. induction l1 as [|o l1 IH]; intros a R [a2 R2] Sp.
  - cbn in R. injection R as ->. cbn [List.app spares] in Sp. now apply (proj1 Sp).
  - cbn [arun List.app spares] in *. destruct (astep y e a o) as [b|]; [|discriminate].
    destruct Sp as [_ Sp]. exact (IH b R (ex_intro _ a2 R2) Sp).
Qed.

Lemma steady_steps y e page l : forall ids a a', app_good e page ids a -> arun y e a l = Some a' -> Forall steady l ->
  stepsT (fun _ _ => True) e (a_world a) (a_world a').
Proof.
  induction l as [|o l IH]; intros ids a a' G H F; cbn [arun] in H; [injection H as <-; constructor|].
  destruct (astep y e a o) as [a1|] eqn:S; [|discriminate]. inversion F as [|? ? F1 F2]; subst.
  pose proof (good_astep _ _ _ _ _ _ _ G S) as G1.
  destruct (steps_astep (fun _ _ => True) _ _ _ _ _ _ _ G S (steady_unregisters _ F1)) as [St _].
  - destruct o; cbn in *; auto; try contradiction. intros g Hg.
    destruct (guard_carried _ _ _ _ _ _ G Hg) as ((mj & m & _ & _ & K1 & K2 & _) & _). exists mj, m. auto.
  - eapply steps_trans; [exact St|]. eapply IH; eauto.
Qed.

(** A mounted component stays what it is. *)
Lemma kept_guard y e page ids a o a' j g :
  app_good e page ids a -> astep y e a o = Some a' -> steady o -> j < List.length (a_globals a) ->
  List.length (a_globals a) <= List.length (a_globals a')
  /\ (nth_error (a_globals a') j = Some (Some g) -> nth_error (a_globals a) j = Some (Some g)).
Proof.
  intros G S Ok L. destruct o as [o|ctx src|i ctx src|i|src|ctx src]; [| |destruct Ok| | |].
  3: { cbn [astep] in S. destruct (nth_error (a_globals a) i) as [[g'|]|] eqn:Hg; try discriminate. injection S as <-.
    cbn [a_globals with_globals]. rewrite upd_length, nth_upd. split; [lia|].
    destruct (Nat.eqb_spec i j) as [->|]; [rewrite Hg; discriminate|auto]. }
  all: split; [|intros Hj; destruct (guard_origin _ _ _ _ _ _ _ _ _ G S Logic.I Hj) as [K|[K _]]; [exact K|lia]].
  - cbn [astep] in S. destruct (free _ _ && free _ _); [|discriminate].
    destruct (step e (a_world a) o) as [w [ | | | | | ]]; try discriminate; injection S as <-; cbn; lia.
  - cbn [astep] in S. destruct (render_global y e None ctx src a) as [[a1 g1]|] eqn:Rg; [|discriminate]. injection S as <-.
    destruct (good_render y e page _ None ctx src a a1 g1 (guards a) G (Permutation_refl _) Rg) as [_ Eg].
    cbn. rewrite Eg, app_length. lia.
  - cbn [astep] in S. destruct (user_source a src) eqn:Us; [|discriminate].
    destruct (into_classes e src a) as [[a1 cl]|] eqn:E; [|discriminate]. injection S as <-. cbn [fst].
    destruct (good_classes _ _ _ _ _ _ _ G Us E) as [_ Eg]. rewrite Eg. lia.
  - cbn [astep] in S. destruct (user_source a src) eqn:Us; [|discriminate].
    destruct (use_style e ctx src a) as [[a1 x]|] eqn:E; [|discriminate]. injection S as <-. cbn [fst].
    destruct (good_use_style _ _ _ _ _ _ _ _ G Us E) as [_ Eg]. rewrite Eg. lia.
Qed.
Lemma kept_guards y e page j g l : forall ids a a',
  app_good e page ids a -> arun y e a l = Some a' -> Forall steady l -> j < List.length (a_globals a) ->
  nth_error (a_globals a') j = Some (Some g) -> nth_error (a_globals a) j = Some (Some g).
Proof.
  induction l as [|o l IH]; intros ids a a' G H F L Hj; cbn [arun] in H; [now injection H as <-|].
  destruct (astep y e a o) as [a1|] eqn:S; [|discriminate]. inversion F as [|? ? F1 F2]; subst.
  destruct (kept_guard y e page ids a o a1 j g G S F1 L) as [L1 K]. apply K.
  eapply IH; eauto; [eapply good_astep; eauto|lia].
Qed.

(** A [Global] that was mounted: the style that it holds is the one registered. *)
Lemma mount_holds y e page ids a ctx src a' mi s :
  app_good e page ids a -> astep y e a (AMount ctx src) = Some a' ->
  carried a' (List.length (a_globals a)) = Some (mi, s) ->
  exists g m cid, nth_error (a_globals a') (List.length (a_globals a)) = Some (Some g)
    /\ nth_error (w_mgrs (a_world a')) mi = Some m
    /\ handle_of (w_mhandles (a_world a')) (g_manager g) = Some mi
    /\ handle_of (w_handles (a_world a')) (g_style g) = Some cid
    /\ registered (a_world a') mi (global_key m s) cid.
Proof.
  intros G S K. pose proof (good_astep _ _ _ _ _ _ _ G S) as G'.
  destruct (guard_of _ _ _ _ _ _ _ G' K) as (g & Hg & Es & Hm').
  destruct (guard_carried _ _ _ _ _ _ G' Hg) as ((mk & m & cid & c & Q1 & Q2 & Q3 & Q4 & Q5 & Q6) & _).
  rewrite Hm' in Q1. injection Q1 as <-. rewrite Es in Q5. exists g, m, cid. do 4 (split; [assumption|]).
  cbn [astep] in S. destruct (render_global y e None ctx src a) as [[a1 g1]|] eqn:Rg; [|discriminate]. injection S as <-.
  cbn [a_world with_globals a_globals] in *. unfold render_global in Rg.
  destruct (context_manager e ctx a) as [[a2 h]|] eqn:E; [|discriminate].
  destruct (good_context e page _ _ _ _ _ G E) as [G1 Eg].
  destruct (clone_source e src (a_world a2)) as [[w1 src1]|] eqn:Ec; [|discriminate].
  destruct (good_clone_source e page _ _ _ _ _ _ _ G1 Ec) as [G2 _].
  destruct (memo y e None h src1 w1) as [[w2 g2]|] eqn:Em; [|discriminate]. injection Rg as <- <-.
  cbn [a_world with_world a_globals] in *. rewrite Eg, nth_app_new in Hg. injection Hg as <-.
  cbn [memo] in Em. unfold new_guard in Em. destruct (manager_of w1 h) as [m1|]; [|discriminate].
  destruct (step e w1 (OCreate h (global_key m1 (s_sheet src1)))) as [w3 [x| | | | |]] eqn:S; try discriminate.
  injection Em as <- <-. cbn [g_style g_manager g_source] in *.
  destruct (create_result e _ _ _ _ _ _ (good_core _ _ _ _ _ _ G2) S) as (_ & mj & cid' & c' & A1 & A2 & _ & A3 & A4 & A5 & A6).
  rewrite Q3 in A2. injection A2 as <-. rewrite Q4 in A3. injection A3 as <-. congruence.
Qed.

(** Component [j] is mounted, the program goes on, and component [i] is mounted with the same CSS
    in the same manager while [j] is still there.  They have the same style element exactly if
    no [Global] with that CSS was unmounted in between. *)
Theorem global_shares_iff : forall y e page l1 a0 ctx src a1 l2 a2 ctx' src' a3 mi s,
  arun y e (app_start page) l1 = Some a0 -> loads_nothing l1 ->
  astep y e a0 (AMount ctx src) = Some a1 ->
  arun y e a1 l2 = Some a2 -> Forall steady l2 ->
  astep y e a2 (AMount ctx' src') = Some a3 ->
  carried a1 (List.length (a_globals a0)) = Some (mi, s) ->
  carried a3 (List.length (a_globals a0)) = Some (mi, s) ->
  carried a3 (List.length (a_globals a2)) = Some (mi, s) ->
  ids_apart e page (w_draws (a_world a3)) ->
  (shown_id a3 (List.length (a_globals a2)) = shown_id a3 (List.length (a_globals a0))
   <-> ~ one_goes y e a1 l2 mi s).
Proof.
  intros y e page l1 a0 ctx src a1 l2 a2 ctx' src' a3 mi s R0 NL S1 R2 F2 S3 C1 C3j C3i Ap.
  pose proof (good_reached _ _ _ _ _ R0) as G0. rewrite (loads_nothing_ids _ NL) in G0.
  pose proof (good_astep _ _ _ _ _ _ _ G0 S1) as G1. cbn [List.app] in G1.
  assert (R13 : arun y e a1 (l2 ++ [AMount ctx' src']) = Some a3).
  { clear -R2 S3. revert a1 R2. induction l2 as [|o l IH]; intros a1 R2; cbn [arun List.app] in *.
    - injection R2 as ->. now rewrite S3.
    - destruct (astep y e a1 o); [now apply IH|discriminate]. }
  assert (F3 : Forall steady (l2 ++ [AMount ctx' src'])) by (apply Forall_app; split; [exact F2|now repeat constructor]).
  assert (R03 : arun y e (app_start page) (l1 ++ AMount ctx src :: l2 ++ [AMount ctx' src']) = Some a3).
  { clear -R0 S1 R13. revert R0. generalize (app_start page). induction l1 as [|o l IH]; intros a R0; cbn [arun List.app] in *.
    - injection R0 as ->. now rewrite S1.
    - destruct (astep y e a o); [now apply IH|discriminate]. }
  assert (NL3 : loads_nothing (l1 ++ AMount ctx src :: l2 ++ [AMount ctx' src'])).
  { intros h d I. apply in_app_iff in I as [I|[I|I]]; [now apply (NL h d)|discriminate|].
    rewrite Forall_forall in F3. exact (F3 _ I). }
  pose proof (good_reached _ _ _ _ _ R03) as G3. rewrite (loads_nothing_ids _ NL3) in G3.
  destruct (mount_holds _ _ _ _ _ _ _ _ _ _ G0 S1 C1) as (gj & m & cj & Nj & Hm & Mj & Hj & Rj).
  assert (R02 : exists ids2, app_good e page ids2 a2).
  { assert (K : forall l ids a b, app_good e page ids a -> arun y e a l = Some b -> exists ids', app_good e page ids' b).
    { induction l as [|o l IH]; intros ids a b Ga Ra; cbn [arun] in Ra; [injection Ra as <-; eauto|].
      destruct (astep y e a o) as [b1|] eqn:Sb; [|discriminate]. eapply IH; [|exact Ra]. eapply good_astep; eauto. }
    exact (K l2 _ a1 a2 G1 R2). }
  destruct R02 as [ids2 G2].
  destruct (mount_holds _ _ _ _ _ _ _ _ _ _ G2 S3 C3i) as (gi & m3 & ci & Ni & Hm3 & Mi & Hi & Ri).
  (* component j in a3 *)
  destruct (guard_of _ _ _ _ _ _ _ G3 C3j) as (gj' & Nj3 & Esj & Mj3).
  assert (Lj : List.length (a_globals a0) < List.length (a_globals a1)) by (apply nth_error_Some; congruence).
  pose proof (kept_guards _ _ _ _ _ _ _ _ _ G1 R13 F3 Lj Nj3) as Nj'. rewrite Nj in Nj'. injection Nj' as <-.
  pose proof (steady_steps _ _ _ _ _ _ _ G1 R13 F3) as St.
  destruct (guard_carried _ _ _ _ _ _ G3 Nj3) as ((mk & m' & cj' & ccj & _ & _ & Hj3 & Hcj & Kj & _) & _).
  pose proof (passes_same _ _ _ _ _ (handles_steps _ _ _ _ St) Hj Hj3) as ->.
  destruct (guard_carried _ _ _ _ _ _ G3 Ni) as ((mk' & m'' & ci' & cci & _ & _ & Hi' & Hci & Ki & _) & _).
  rewrite Hi in Hi'. injection Hi' as <-.
  assert (Cd1 : cored e (a_world a1)) by (eexists; eapply good_core; eauto).
  assert (Cd3 : cored e (a_world a3)) by (eexists; eapply good_core; eauto).
  destruct (steps_like _ _ _ _ _ _ St Hm) as (m3' & Hm3' & Lk). rewrite Hm3 in Hm3'. injection Hm3' as <-.
  assert (Ek : global_key m3 s = global_key m s) by (destruct Lk as (Lp & _); unfold global_key; now rewrite Lp).
  assert (Ids : shown_id a3 (List.length (a_globals a2)) = shown_id a3 (List.length (a_globals a0)) <-> ci = cj).
  { unfold shown_id. rewrite Ni, Nj3. unfold get_id, handle_content. rewrite Hi, Hj3, Hci, Hcj. cbn [option_map]. split.
    - intros E. destruct (Nat.eq_dec ci cj) as [Q|N]; [exact Q|exfalso].
      destruct (gd_reach _ _ _ _ _ _ G3) as (l0 & Re & El).
      assert (NC : no_clash e page l0 (w_draws (a_world a3))) by now apply ids_no_clash.
      pose proof (reaches_inv _ _ _ _ Re NC) as Iv. destruct (i_ids _ _ _ _ _ Iv) as [Or Ui].
      pose proof (o_origin _ _ _ _ (good_core _ _ _ _ _ _ G3) _ _ Hci) as O.
      destruct (c_hydrated cci) eqn:Hy; [contradiction|]. apply (Ui ci cj cci ccj Hci Hcj N Hy). congruence.
    - intros E. subst cj. rewrite Hci in Hcj. injection Hcj as <-. reflexivity. }
  rewrite Ids. split.
  - (* one went: the key was unregistered, and what came later is new *)
    intros E (la & x & lb & b & -> & Ra & Cx). subst cj.
    rewrite <- app_assoc in R13. cbn [List.app] in R13.
    assert (Kb : exists idsb b1, app_good e page idsb b /\ astep y e b (AUnmount x) = Some b1
              /\ arun y e b1 (lb ++ [AMount ctx' src']) = Some a3
              /\ stepsT (fun _ _ => True) e (a_world a1) (a_world b)).
    { rewrite <- app_assoc in F3. apply Forall_app in F3 as [Fa _]. pose proof (steady_steps _ _ _ _ _ _ _ G1 Ra Fa) as Sta.
      clear -R13 Ra G1 Sta. revert a1 G1 R13 Ra Sta.
      assert (K : forall l ids a, app_good e page ids a -> arun y e a (l ++ AUnmount x :: lb ++ [AMount ctx' src']) = Some a3 ->
                arun y e a l = Some b -> exists idsb b1, app_good e page idsb b /\ astep y e b (AUnmount x) = Some b1
              /\ arun y e b1 (lb ++ [AMount ctx' src']) = Some a3).
      { induction l as [|o l IH]; intros ids a Ga R13 Ra; cbn [arun List.app] in *.
        - injection Ra as ->. destruct (astep y e b (AUnmount x)) as [b1|] eqn:Sb; [|discriminate]. eauto.
        - destruct (astep y e a o) as [a'|] eqn:Sa; [|discriminate]. exact (IH _ a' (good_astep _ _ _ _ _ _ _ Ga Sa) R13 Ra). }
      intros a1 G1 R13 Ra Sta. destruct (K la _ a1 G1 R13 Ra) as (idsb & b1 & A & B & C). eauto 8. }
    destruct Kb as (idsb & b1 & Gb & Sb & Rb & Sta).
    pose proof (good_astep _ _ _ _ _ _ _ Gb Sb) as Gb1.
    assert (Cdb : cored e (a_world b)) by (eexists; eapply good_core; eauto).
    assert (Cdb1 : cored e (a_world b1)) by (eexists; eapply good_core; eauto).
    assert (Fb : Forall steady (lb ++ [AMount ctx' src'])).
    { rewrite <- app_assoc in F3. apply Forall_app in F3 as [_ F3]. now inversion F3. }
    pose proof (steady_steps _ _ _ _ _ _ _ Gb1 Rb Fb) as Stb.
    destruct (steps_like _ _ _ _ _ _ Sta Hm) as (mb & Hmb & Lkb).
    assert (Ekb : global_key mb s = global_key m s) by (destruct Lkb as (Lp & _); unfold global_key; now rewrite Lp).
    destruct (guard_of _ _ _ _ _ _ _ Gb Cx) as (gx & Nx & Esx & Mx).
    assert (Nr : forall z, ~ registered (a_world b1) mi (global_key m s) z).
    { cbn [astep] in Sb. rewrite Nx in Sb. injection Sb as <-. cbn [a_world with_globals with_world].
      destruct (guard_carried _ _ _ _ _ _ Gb Nx) as (Ok & _). rewrite <- Ekb, <- Esx.
      exact (drop_guard_gone y e gx (a_world b) mi mb Cdb Ok Mx Hmb). }
    rewrite Ek in Ri. destruct (reg_old_steps _ _ _ _ Stb Cdb1 _ _ _ Ri) as [K|K]; [exact (Nr _ K)|].
    (* but it is the style of component j, which is older *)
    assert (Old : ci < List.length (w_contents (a_world a1))).
    { destruct (guard_carried _ _ _ _ _ _ G1 Nj) as ((_ & _ & z & cz & _ & _ & Hz & Hcz & _) & _).
      rewrite Hj in Hz. injection Hz as <-. now apply nth_lt in Hcz. }
    assert (Mono : forall T w w', stepsT T e w w' -> List.length (w_contents w) <= List.length (w_contents w')).
    { intros T w w' H. induction H as [|w o w' _ _ IH]; [lia|]. pose proof (contents_grow e w o). lia. }
    assert (List.length (w_contents (a_world b)) <= List.length (w_contents (a_world b1))).
    { cbn [astep] in Sb. rewrite Nx in Sb. injection Sb as <-. cbn [a_world with_globals with_world]. rewrite drop_contents. lia. }
    pose proof (Mono _ _ _ Sta). lia.
  - (* none went: the style stayed registered *)
    intros N. destruct (spares_or_goes y e mi s l2 a1 a2 R2 F2) as [Sp|K]; [|contradiction].
    assert (Sp3 : spares y e a1 (l2 ++ [AMount ctx' src']) mi s).
    { clear -Sp R2. revert a1 Sp R2. induction l2 as [|o l IH]; intros a Sp R2; cbn [arun List.app spares] in *.
      - injection R2 as ->. split; [reflexivity|]. now destruct (astep y e a2 (AMount ctx' src')).
      - destruct Sp as [Sp1 Sp2]. split; [exact Sp1|]. destruct (astep y e a o); [now apply IH|exact Logic.I]. }
    destruct (steps_arun (all_but mi s) y e page _ _ a1 a3 G1 R13 (spares_fits _ _ _ _ _ _ _ _ G1 Sp3)) as [St3 _].
    destruct (keep_steps _ _ _ _ mi (global_key m s) cj St3 Cd1) as [K|[_ K]]; [|exact Rj| |exfalso; exact (K _ Mj3)].
    + unfold all_but. cbn. tauto.
    + rewrite Ek in Ri. exact (ComponentFacts.registered_fun _ _ _ _ _ _ Cd3 Ri K).
Qed.
Print Assumptions global_shares_iff.

(** Both sides: [Global] 1 and the first one share an element if the second one is left alone,
    and do not if it was unmounted in between. *)
Local Definition red_global (h : nat) : aop := AMount (Some h) (mk_source (demo_sheet "red") None None).
Local Definition share_before : list aop :=
  [AOp (OBuild (lit "app") (Some 1) true false); AOp (OCloneManager 0); AOp (OCloneManager 0); AOp (OCloneManager 0)].
Example global_shares_iff_ex : forall y, exists a0 a1 a2 a3 b2 b3,
  arun y demo_env (app_start demo_page) share_before = Some a0
  /\ astep y demo_env a0 (red_global 1) = Some a1
  /\ arun y demo_env a1 [red_global 2] = Some a2
  /\ astep y demo_env a2 (red_global 3) = Some a3
  /\ shown_id a3 2 = shown_id a3 0 /\ shown_id a3 0 <> None
  /\ arun y demo_env a1 [red_global 2; AUnmount 1] = Some b2
  /\ astep y demo_env b2 (red_global 3) = Some b3
  /\ one_goes y demo_env a1 [red_global 2; AUnmount 1] 0 (demo_sheet "red")
  /\ carried b3 0 = Some (0, demo_sheet "red") /\ carried b3 2 = Some (0, demo_sheet "red")
  /\ ids_apart demo_env demo_page (w_draws (a_world b3))
  /\ shown_id b3 2 <> shown_id b3 0.
Proof.
  intros [[|] [|]]; do 6 eexists; (do 4 (split; [vm_compute; reflexivity|])).
  all: (split; [vm_compute; reflexivity|]); (split; [vm_compute; discriminate|]).
  all: (do 2 (split; [vm_compute; reflexivity|])); (split; [|split; [vm_compute; reflexivity|split; [vm_compute; reflexivity|]]]).
  all: try (eexists [_], 1, [], _; split; [reflexivity|split; [vm_compute; reflexivity|vm_compute; reflexivity]]).
  all: split; [|vm_compute; discriminate].
  all: apply demo_ids_apart; vm_compute; discriminate.
Qed.

(** ** C50 *)

Lemma quote_cut_free s a b : cut_at (lit """") s a b -> ~ In (ch """") a.
Proof.
  intros H. induction H as [s|c s a b N _ IH]; [easy|]. intros [->|I]; [|auto]. apply N. exists s. reflexivity.
Qed.

(** If no escaped text holds an end tag, then a browser reads from the markup the styles that are
    in the data exactly if no id holds a double quote. *)
Theorem static_markup_lists_records_iff : forall esc d,
  (forall s, no_end_tag (esc s)) ->
  (reads_as (static_markup esc d) (map (fun r => (r_id r, esc (r_text r))) d)
   <-> forall r, In r d -> ~ In (ch """") (r_id r)).
Proof.
  intros esc d He. split; [|now apply static_markup_lists_records].
  generalize (static_markup esc d). induction d as [|r d IH]; intros s H; [easy|]. cbn [map] in H.
  inversion H as [|s0 s1 s2 id text l C1 C2 R]; subst. intros x [<-|I]; [exact (quote_cut_free _ _ _ C1)|exact (IH _ R x I)].
Qed.
Print Assumptions static_markup_lists_records_iff.
Example static_markup_iff_ex :
  ~ In (ch """") (lit "app-style-0") /\ In (ch """") (lit "x""-style-0") /\ forall s : str, no_end_tag ((fun _ => lit "a{}") s).
Proof.
  split; [vm_compute; intuition discriminate|]. split; [vm_compute; tauto|]. intros s (a & b & E).
  apply (f_equal (@List.length N)) in E. rewrite !app_length in E. cbn in E. lia.
Qed.
