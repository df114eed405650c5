(** * CreateFacts: the constructors of styles, step by step. *)

From Coq Require Import String Ascii List NArith Bool Arith Lia Permutation.
From Verif Require Import Str StrFacts Progress Ast Render CssParser SheetCache Ids IdFacts Manager SpecManager
  ManagerFacts ManagerInv ManagerSteps ManagerCore ManagerProps Hydrate Hooks SpecHooks HookFacts HookOnly
  HookKeep PropsCache SpecProgress PropsProgress Create SpecCreate.
Import ListNotations.
Local Open Scope list_scope.
Local Opaque parse to_style_str.

Lemma handle_upd_eq (l : list (option nat)) h j :
  handle_of (upd l h (fun _ => None)) j = if Nat.eqb h j then None else handle_of l j.
Proof.
  unfold handle_of. rewrite nth_upd. destruct (Nat.eqb_spec h j) as [->|]; auto.
  now destruct (nth_error l j).
Qed.
Lemma handle_app_eq (l : list (option nat)) x j :
  handle_of (l ++ [Some x]) j = if Nat.eqb j (List.length l) then Some x else handle_of l j.
Proof.
  unfold handle_of. destruct (Nat.eqb_spec j (List.length l)) as [->|N]; [now rewrite nth_app_new|].
  destruct (le_lt_dec (List.length l) j) as [L|L].
  - rewrite (proj2 (nth_error_None (l ++ [Some x]) j)) by (rewrite app_length; cbn; lia).
    now rewrite (proj2 (nth_error_None l j)) by lia.
  - now rewrite nth_error_app1.
Qed.

(** A manager keeps its way of mounting. *)
Definition tied (m m' : mgr) : Prop := (m_data m = None <-> m_data m' = None) /\ m_append m' = m_append m.
Lemma tied_refl m : tied m m. Proof. now repeat split. Qed.
Lemma tied_trans a b c : tied a b -> tied b c -> tied a c.
Proof. intros (A1 & A2) (B1 & B2). unfold tied. rewrite B2. split; [tauto|auto]. Qed.
Lemma tied_upd l i f mi m :
  (forall x, tied x (f x)) -> nth_error l mi = Some m -> exists m', nth_error (upd l i f) mi = Some m' /\ tied m m'.
Proof.
  intros F H. rewrite nth_upd. destruct (Nat.eqb_spec i mi) as [->|]; rewrite H; cbn; eexists; split; eauto using tied_refl.
Qed.
Lemma load_data_tied mi l w mj m :
  nth_error (w_mgrs w) mj = Some m -> exists m', nth_error (w_mgrs (fst (load_data mi l w))) mj = Some m' /\ tied m m'.
Proof.
  revert w m. induction l as [|r l IH]; intros w m H; [exists m; split; [exact H|apply tied_refl]|]. cbn [load_data].
  destruct (load_one mi r w) as [w1|] eqn:E; [|exists m; split; [exact H|apply tied_refl]].
  assert (G : exists m', nth_error (w_mgrs w1) mj = Some m' /\ tied m m').
  { unfold load_one in E. destruct (nth_error (w_mgrs w) mi) as [x|]; [|injection E as <-; exists m; split; [exact H|apply tied_refl]].
    destruct (reg_get _ _) as [c|].
    - destruct (nth_error _ c); [destruct (str_eqb _ _); [|discriminate]|]; injection E as <-; exists m; split; auto using tied_refl.
    - injection E as <-. cbn. apply tied_upd; auto. intros y. now repeat split. }
  destruct G as (m1 & H1 & L1). destruct (IH w1 m1 H1) as (m2 & H2 & L2). exists m2. split; eauto using tied_trans.
Qed.
Lemma step_tied e w o mi m :
  nth_error (w_mgrs w) mi = Some m -> exists m', nth_error (w_mgrs (fst (step e w o))) mi = Some m' /\ tied m m'.
Proof.
  intros H. assert (Z : exists m', nth_error (w_mgrs w) mi = Some m' /\ tied m m') by (exists m; split; auto using tied_refl).
  destruct o; cbn [step]; auto.
  - assert (G : forall x, exists m', nth_error (w_mgrs w ++ [x]) mi = Some m' /\ tied m m')
      by (intros x; exists m; split; auto using tied_refl, nth_app_old).
    unfold build. destruct (e_wasm e); [|apply G]. destruct cont; [apply G|].
    destruct (e_document e); [|auto]. destruct (e_head e); [apply G|auto].
  - unfold clone_manager. destruct (handle_of _ _); [|auto]. cbn. apply tied_upd; auto. intros y. now repeat split.
  - unfold drop_manager. destruct (handle_of _ _) as [mj|]; [|auto].
    destruct (nth_error (w_mgrs w) mj) as [x|]; [|auto]. cbv zeta. destruct (Nat.eqb _ _); cbn [fst].
    + match goal with |- exists m', nth_error (w_mgrs (release_all e ?l ?x)) _ = _ /\ _ =>
        destruct (release_all_frame e l x) as (_ & -> & _) end. cbn. apply tied_upd; auto. intros y. now repeat split.
    + cbn. apply tied_upd; auto. intros y. now repeat split.
  - destruct (handle_of (w_mhandles w) h) as [mj|]; [|auto].
    unfold get_or_register. destruct (nth_error (w_mgrs w) mj) as [x|] eqn:Hx; [|auto].
    destruct (reg_get _ _) as [c|]; [auto|]. cbv zeta. destruct (_ && _); [auto|].
    destruct (m_data x) eqn:D.
    + cbn. rewrite upd_upd, nth_upd. destruct (Nat.eqb_spec mj mi) as [->|]; rewrite H; cbn; eexists; split; eauto using tied_refl.
      rewrite Hx in H. injection H as ->. unfold tied. cbn. split; auto. rewrite D. split; discriminate.
    + destruct (mount _ _ _ _ _); [|auto]. cbn. apply tied_upd; auto. intros y. now repeat split.
  - unfold clone_style. destruct (handle_of _ _) as [c|]; auto.
  - unfold drop_style. destruct (handle_of (w_handles w) h) as [c|]; [|auto]. cbn [fst].
    match goal with |- exists m', nth_error (w_mgrs (release e ?l ?x)) _ = _ /\ _ => destruct (release_frame e l x) as (_ & -> & _) end.
    exact Z.
  - unfold unregister_style. destruct (handle_of _ _) as [c|]; [|auto].
    destruct (nth_error (w_contents w) c) as [x|]; [|auto]. destruct (nth_error (w_mgrs w) (c_mgr x)) as [y|]; [|auto].
    destruct (Nat.eqb _ _); [auto|]. destruct (reg_remove _ _) as [r [z|]]; cbn [fst].
    + match goal with |- exists m', nth_error (w_mgrs (release e ?l ?x)) _ = _ /\ _ => destruct (release_frame e l x) as (_ & -> & _) end.
      cbn. apply tied_upd; auto. intros t. now repeat split.
    + cbn. apply tied_upd; auto. intros t. now repeat split.
  - destruct (handle_of _ _); [|auto]. now apply load_data_tied.
  - destruct (handle_of _ _); auto.
Qed.

Lemma steps_tied e w w' mi m :
  steps e w w' -> nth_error (w_mgrs w) mi = Some m -> exists m', nth_error (w_mgrs w') mi = Some m' /\ tied m m'.
Proof.
  intros S. revert m. induction S as [|w o w' Tm S IH]; [intros m H; exists m; auto using tied_refl|]. intros m H.
  destruct (step_tied e w o mi m H) as (d & Hd & B). destruct (IH _ Hd) as (d' & Hd' & B'). exists d'. split; auto.
  eapply tied_trans; eauto.
Qed.

Lemma mlive_mgr e w mi : cored e w -> mlive w mi -> exists m, nth_error (w_mgrs w) mi = Some m.
Proof.
  intros C L. apply (mlive_strong _ _ _ C) in L. unfold mstrong_of in L.
  destruct (nth_error (w_mgrs w) mi) as [m|]; eauto. lia.
Qed.

(** Dropping a handle of a manager. *)
Lemma drop_frame e w h :
  cored e w ->
  let w' := fst (step e w (ODropManager h)) in
  w_handles w' = w_handles w /\ w_draws w' = w_draws w
  /\ List.length (w_mhandles w') = List.length (w_mhandles w)
  /\ (forall j, handle_of (w_mhandles w') j = if Nat.eqb h j then None else handle_of (w_mhandles w) j)
  /\ ((forall mi, mlive w mi -> mlive w' mi) -> same_styles w w').
Proof.
  intros C w'. subst w'. cbn [step]. unfold drop_manager. destruct (handle_of (w_mhandles w) h) as [mi|] eqn:Hh.
  - destruct (mlive_mgr e w mi C) as [m Hm]; [now exists h|]. rewrite Hm. cbv zeta.
    destruct (Nat.eqb (Nat.pred (m_strong m)) 0) eqn:Z; cbn [fst].
    + set (w1 := with_mgrs _ _). destruct (release_all_frame e (map snd (m_reg m)) w1) as (F1 & F2 & F3 & F4 & _).
      rewrite F1, F3, F4. cbn. split; auto. split; auto. split; [apply upd_length|].
      split; [intros j; apply handle_upd_eq|]. intros A. exfalso.
      destruct (A mi) as [j Hj]; [now exists h|]. rewrite F4 in Hj. cbn in Hj. rewrite handle_upd_eq in Hj.
      destruct (Nat.eqb_spec h j) as [->|N]; [discriminate|].
      destruct C as [ids C]. pose proof (o_mcounted _ _ _ _ C mi) as K. unfold mstrong_of in K. rewrite Hm in K.
      apply Nat.eqb_eq in Z. pose proof (cnt_live_drop _ _ _ mi Hh) as D. rewrite Nat.eqb_refl in D.
      assert (P : cnt (live (upd (w_mhandles w) h (fun _ => None))) mi > 0); [|lia].
      apply cnt_pos. unfold live. apply in_flat_map. exists (Some mi). split; [|now left].
      apply (nth_error_In _ j). apply handle_nth. rewrite handle_upd_eq. now destruct (Nat.eqb_spec h j).
    + cbn. split; auto. split; auto. split; [apply upd_length|]. split; [intros j; apply handle_upd_eq|].
      intros _. split; auto. split; auto. split; auto. intros mj k cid. unfold registered. cbn. rewrite nth_upd.
      destruct (Nat.eqb_spec mi mj) as [<-|N]; [|tauto]. rewrite Hm. cbn. split; intros (x & E & I); injection E as <-; eauto.
  - cbn. split; auto. split; auto. split; auto. split.
    + intros j. destruct (Nat.eqb_spec h j) as [->|]; auto.
    + intros _. repeat split; auto; tauto.
Qed.

Lemma drop_source_frame e w src :
  cored e w ->
  let w' := drop_source e src w in
  w_handles w' = w_handles w /\ w_draws w' = w_draws w
  /\ List.length (w_mhandles w') = List.length (w_mhandles w)
  /\ (forall j, handle_of (w_mhandles w') j
                = if existsb (fun h => Nat.eqb h j) (source_handles src) then None else handle_of (w_mhandles w) j)
  /\ ((forall mi, mlive w mi -> mlive w' mi) -> same_styles w w').
Proof.
  intros C w'. subst w'. unfold drop_source, source_handles. destruct (s_manager src) as [h|].
  - destruct (drop_frame e w h C) as (F1 & F2 & F3 & F4 & F5). repeat split; auto; try apply F5; auto.
    intros j. rewrite F4. cbn. now rewrite orb_false_r.
  - cbn. repeat split; auto; tauto.
Qed.

Lemma cored_drop_source e w src : cored e w -> cored e (drop_source e src w).
Proof. intros C. unfold drop_source. destruct (s_manager src); auto. now apply cored_step. Qed.

Lemma create_mhandles e w h k : w_mhandles (fst (step e w (OCreate h k))) = w_mhandles w.
Proof.
  cbn [step]. destruct (handle_of (w_mhandles w) h) as [mi|]; auto. unfold get_or_register.
  destruct (nth_error (w_mgrs w) mi) as [m|]; auto. destruct (reg_get _ _); auto. cbv zeta.
  destruct (e_debug e && _); auto. destruct (m_data m); auto. now destruct (mount _ _ _ _ _).
Qed.
Lemma create_failed_handles e w h k w' r :
  step e w (OCreate h k) = (w', r) -> (forall x, r <> RHandle x) -> w_handles w' = w_handles w.
Proof.
  cbn [step]. destruct (handle_of (w_mhandles w) h) as [mi|]; [|now intros H; injection H as <-]. unfold get_or_register.
  destruct (nth_error (w_mgrs w) mi) as [m|]; [|now intros H; injection H as <-].
  destruct (reg_get _ _) as [cid|]; [intros H N; injection H as <- <-; now elim (N (List.length (w_handles w)))|]. cbv zeta.
  destruct (e_debug e && _); [now intros H; injection H as <-|].
  destruct (m_data m); [intros H N; injection H as <- <-; now elim (N (List.length (w_handles w)))|].
  destruct (mount _ _ _ _ _); [intros H N; injection H as <- <-; now elim (N (List.length (w_handles w)))|].
  now intros H; injection H as <-.
Qed.

Lemma good_cored e page ids w gs extra : good e page ids w gs extra -> cored e w.
Proof. intros G. exists ids. eapply good_core; eauto. Qed.

Definition key_of (prefix : option str) (m : mgr) (s : sheet) : key :=
  match prefix with Some p => style_key p s | None => global_key m s end.

(** [create_impl]: in the manager of [h], whatever manager the source has. *)
Lemma impl_spec e page ids prefix src h w gs extra w' r :
  good e page ids w gs (h :: source_handles src ++ extra) ->
  create_impl e prefix src h w = (w', r) ->
  good e page ids w' gs extra /\ steps e w w'
  /\ List.length (w_mhandles w') = List.length (w_mhandles w)
  /\ (forall j, handle_of (w_mhandles w') j
        = if existsb (fun x => Nat.eqb x j) (h :: source_handles src) then None else handle_of (w_mhandles w) j)
  /\ exists mi m, handle_of (w_mhandles w) h = Some mi /\ nth_error (w_mgrs w) mi = Some m
  /\ match r with
     | Created x => exists cid c, w_handles w' = w_handles w ++ [Some cid] /\ x = List.length (w_handles w)
         /\ nth_error (w_contents w') cid = Some c /\ c_key c = key_of prefix m (s_sheet src) /\ c_mgr c = mi
         /\ (mlive w' mi -> registered w' mi (key_of prefix m (s_sheet src)) cid)
     | _ => w_handles w' = w_handles w
     end.
Proof.
  intros G H. unfold create_impl in H. cbv zeta in H.
  pose proof (good_cored _ _ _ _ _ _ G) as C0.
  pose proof (gd_live _ _ _ _ _ _ G) as Lv. apply Forall_inv in Lv. destruct Lv as [mi Hh]. destruct (mlive_mgr e w mi C0) as [m Hm]; [now exists h|].
  assert (G1 : good e page ids (drop_source e src w) gs (h :: extra)).
  { apply good_drop_source. eapply good_perm; [apply Permutation_refl| |exact G]. apply Permutation_middle. }
  pose proof (good_cored _ _ _ _ _ _ G1) as C1.
  destruct (drop_source_frame e w src C0) as (D1 & D2 & D3 & D4 & _). cbv zeta in *.
  set (w1 := drop_source e src w) in *.
  assert (Hh1 : handle_of (w_mhandles w1) h = Some mi).
  { rewrite D4. destruct (existsb _ _) eqn:X; auto. apply existsb_exists in X. destruct X as (x & I & E). apply Nat.eqb_eq in E. subst x.
    pose proof (gd_owned _ _ _ _ _ _ G) as O. cbn in O. inversion O as [|? ? N _]; subst. exfalso. apply N.
    apply in_app_iff. left. apply in_app_iff. now left. }
  assert (S1 : steps e w w1) by apply steps_drop_source.
  destruct (steps_like e w w1 mi m S1 Hm) as (m1 & Hm1 & L1 & _).
  unfold manager_of in H. rewrite Hh1, Hm1 in H.
  replace (match prefix with Some p => style_key p (s_sheet src) | None => global_key m1 (s_sheet src) end)
    with (key_of prefix m (s_sheet src)) in H by (unfold key_of, global_key; rewrite L1; reflexivity).
  set (k := key_of prefix m (s_sheet src)) in *.
  destruct (step e w1 (OCreate h k)) as [w2 r0] eqn:S. injection H as <- <-. change (drop_manager e h w2) with (step e w2 (ODropManager h)).
  assert (E2 : w2 = fst (step e w1 (OCreate h k))) by now rewrite S.
  assert (G2 : good e page ids w2 gs (h :: extra)) by (rewrite E2; apply good_step; auto; discriminate).
  pose proof (good_cored _ _ _ _ _ _ G2) as C2.
  assert (S2 : steps e w1 w2) by (eapply steps_res; [|exact S]; tm).
  destruct (drop_frame e w2 h C2) as (F1 & F2 & F3 & F4 & _). cbv zeta in *.
  assert (M2 : w_mhandles w2 = w_mhandles w1) by (rewrite E2; apply create_mhandles).
  set (w3 := fst (step e w2 (ODropManager h))) in *.
  assert (S3 : steps e w2 w3) by (apply steps_one; tm).
  split; [now apply good_drop_manager|]. split; [eapply steps_trans; [eapply steps_trans|]; eauto|].
  split. { rewrite F3, M2; exact D3. } split.
  { intros j. rewrite F4, M2, D4. cbn [existsb]. now destruct (Nat.eqb h j). }
  exists mi, m. split; auto. split; auto.
  destruct r0 as [x| | | | |]; cbn [outcome_of]; try (rewrite F1, <- D1; eapply create_failed_handles; [exact S|discriminate]).
  destruct (create_result e ids w1 h k w2 x (good_core _ _ _ _ _ _ G1) S) as (Ex & mi' & cid & c & K1 & K2 & K3 & K4 & K5 & K6 & K7).
  rewrite Hh1 in K1. injection K1 as <-.
  destruct (steps_contents e w2 w3 cid c S3 K4) as (c3 & Hc3 & B). apply base_fields in B. destruct B as (B1 & B2 & B3 & B4 & B5).
  exists cid, c3. split; [now rewrite F1, K3, D1|]. split; [now rewrite Ex, D1|]. split; auto. split; [now rewrite B2, K5|]. split; [congruence|]. fold k.
  intros Lv'. assert (K : registered w3 mi k cid \/ mdead w3 mi).
  { apply (HookTame.keep_step (fun _ _ => False)); [exact C2|tm|tauto|exact K7]. }
  destruct K as [K|K]; auto. destruct K as [_ K]. destruct Lv' as [j Hj]. now elim (K j).
Qed.

(** ** What a call does *)

Definition took (l : list nat) (w w' : world) : Prop :=
  (forall j, In j l -> handle_of (w_mhandles w') j = None)
  /\ forall j, ~ In j l -> handle_of (w_mhandles w') j = handle_of (w_mhandles w) j.

Definition made (w w' : world) (mi : nat) (k : key) (r : outcome) : Prop :=
  match r with
  | Created x => exists cid c, w_handles w' = w_handles w ++ [Some cid] /\ x = List.length (w_handles w)
      /\ nth_error (w_contents w') cid = Some c /\ c_key c = k /\ c_mgr c = mi
      /\ (mlive w' mi -> registered w' mi k cid)
  | ParseError => False
  | _ => w_handles w' = w_handles w
  end.

(** No style is touched, unless a manager dies. *)
Definition left_alone (w w' : world) : Prop :=
  w_handles w' = w_handles w /\ w_draws w' = w_draws w
  /\ ((forall mi, mlive w mi -> mlive w' mi) -> same_styles w w').

(** A style that is registered is reused. *)
Definition reused (w w' : world) (mi : nat) (k : key) (r : outcome) : Prop :=
  forall cid, registered w mi k cid ->
  exists x, r = Created x /\ w_handles w' = w_handles w ++ [Some cid] /\ w_draws w' = w_draws w
    /\ ((forall mj, mlive w mj -> mlive w' mj) -> nothing_new w w').

Definition did (e : env) (st : Prop) (w w' : world) (mi : nat) (f : sheet -> key) (os : option sheet) (r : outcome) : Prop :=
  steps e w w' /\ match os with None => r = ParseError /\ left_alone w w' | Some s => made w w' mi (f s) r /\ reused w w' mi (f s) r
      /\ (rereads e (f s) -> r <> Panicked /\ (st -> exists x, r = Created x)) end.

Lemma same_styles_trans a b c : same_styles a b -> same_styles b c -> same_styles a c.
Proof.
  intros (A1 & A2 & A3 & A4) (B1 & B2 & B3 & B4). repeat split; try congruence; intros H; [apply A4, B4|apply B4, A4]; auto.
Qed.

Lemma nothing_new_same w w' : same_styles w w' -> nothing_new w w'.
Proof. intros (A1 & A2 & A3 & A4). repeat split; try congruence; apply A4. Qed.
Lemma nothing_new_trans a b c : nothing_new a b -> nothing_new b c -> nothing_new a c.
Proof. intros (A1 & A2 & A3) (B1 & B2 & B3). repeat split; try congruence; intros H; [apply A3, B3|apply B3, A3]; auto. Qed.

(** The same, of [create_impl]. *)
Lemma impl_reused e page ids prefix src h w gs extra w' r mi m :
  good e page ids w gs (h :: source_handles src ++ extra) ->
  create_impl e prefix src h w = (w', r) ->
  handle_of (w_mhandles w) h = Some mi -> nth_error (w_mgrs w) mi = Some m ->
  reused w w' mi (key_of prefix m (s_sheet src)) r.
Proof.
  intros G H Hh Hm cid R. unfold create_impl in H. cbv zeta in H.
  pose proof (good_cored _ _ _ _ _ _ G) as C0.
  assert (G1 : good e page ids (drop_source e src w) gs (h :: extra)).
  { apply good_drop_source. eapply good_perm; [apply Permutation_refl| |exact G]. apply Permutation_middle. }
  pose proof (good_cored _ _ _ _ _ _ G1) as C1.
  destruct (drop_source_frame e w src C0) as (D1 & D2 & D3 & D4 & D5). cbv zeta in *.
  set (w1 := drop_source e src w) in *.
  assert (Hh1 : handle_of (w_mhandles w1) h = Some mi).
  { rewrite D4. destruct (existsb _ _) eqn:X; auto. apply existsb_exists in X. destruct X as (x & I & E). apply Nat.eqb_eq in E. subst x.
    pose proof (gd_owned _ _ _ _ _ _ G) as O. cbn in O. inversion O as [|? ? N _]; subst. exfalso. apply N.
    apply in_app_iff. left. apply in_app_iff. now left. }
  assert (S1 : steps e w w1) by apply steps_drop_source.
  destruct (steps_like e w w1 mi m S1 Hm) as (m1 & Hm1 & L1 & _).
  unfold manager_of in H. rewrite Hh1, Hm1 in H.
  replace (match prefix with Some p => style_key p (s_sheet src) | None => global_key m1 (s_sheet src) end)
    with (key_of prefix m (s_sheet src)) in H by (unfold key_of, global_key; rewrite L1; reflexivity).
  set (k := key_of prefix m (s_sheet src)) in *.
  assert (R1 : registered w1 mi k cid).
  { pose proof Hh1 as Hx. unfold w1, drop_source in Hx |- *. destruct (s_manager src) as [hs|]; [|exact R].
    destruct (HookTame.keep_step (fun _ _ => False) e w (ODropManager hs) mi k cid) as [K|K]; auto; [tm|].
    destruct K as [_ K]. elim (K h). exact Hx. }
  destruct R1 as (m1' & Hm1' & I). rewrite Hm1 in Hm1'. injection Hm1' as <-.
  pose proof (good_core _ _ _ _ _ _ G1) as Co. destruct (o_reg _ _ _ _ Co _ _ Hm1) as (ND & _ & _).
  apply (reg_get_complete _ _ _ ND) in I.
  destruct (step e w1 (OCreate h k)) as [w2 r0] eqn:S. injection H as <- <-. change (drop_manager e h w2) with (step e w2 (ODropManager h)).
  assert (E2 : w2 = fst (step e w1 (OCreate h k))) by now rewrite S.
  assert (G2 : good e page ids w2 gs (h :: extra)) by (rewrite E2; apply good_step; auto; discriminate).
  pose proof (good_cored _ _ _ _ _ _ G2) as C2.
  cbn [step] in S. rewrite Hh1 in S. unfold get_or_register in S. rewrite Hm1, I in S.
  assert (Q : w_handles w2 = w_handles w1 ++ [Some cid] /\ w_draws w2 = w_draws w1 /\ w_mhandles w2 = w_mhandles w1 /\ nothing_new w1 w2).
  { injection S as <- _. cbn. split; auto. split; auto. split; auto. unfold nothing_new, registered. cbn. split; auto. split; [apply upd_length|]. tauto. }
  assert (Er : r0 = RHandle (List.length (w_handles w1))) by now injection S.
  clear S. destruct Q as (Q1 & Q2 & Q3 & Q4).
  destruct (drop_frame e w2 h C2) as (F1 & F2 & F3 & F4 & F5). cbv zeta in *.
  set (w3 := fst (step e w2 (ODropManager h))) in *.
  subst r0. eexists. split; [reflexivity|]. split; [congruence|]. split; [congruence|]. intros A.
  assert (X : forall mj, mlive w3 mj -> mlive w1 mj).
  { intros mj [j Hj]. rewrite F4, Q3 in Hj. destruct (Nat.eqb h j); [discriminate|]. now exists j. }
  apply nothing_new_trans with w1; [apply nothing_new_same, D5; auto|]. apply nothing_new_trans with w2; auto.
  apply nothing_new_same, F5. intros mj [j Hj]. apply A. rewrite Q3 in Hj. exists j. rewrite D4 in Hj. now destruct (existsb _ _).
Qed.

Definition css_handles (c : css) : list nat := match css_manager c with Some h => [h] | None => [] end.

Lemma existsb_took l j : existsb (fun x => Nat.eqb x j) l = true <-> In j l.
Proof.
  rewrite existsb_exists. split; [intros (x & I & E); apply Nat.eqb_eq in E; now subst|intros I; exists j; split; auto; apply Nat.eqb_refl].
Qed.
Lemma took_of l w w' :
  (forall j, handle_of (w_mhandles w') j = if existsb (fun x => Nat.eqb x j) l then None else handle_of (w_mhandles w) j) ->
  took l w w'.
Proof.
  intros H. split; intros j I; rewrite H; destruct (existsb _ l) eqn:E; auto.
  - apply existsb_took in I. congruence.
  - apply existsb_took in E. tauto.
Qed.

(** What [try_into] gives. *)
Lemma try_into_spec loc c k k1 o :
  cache_ok k -> try_into loc c k = (k1, o) ->
  cache_ok k1 /\ match o with
                 | None => css_sheet c = None /\ css_manager c = None
                 | Some src => css_sheet c = Some (s_sheet src) /\ css_manager c = s_manager src
                 end.
Proof.
  intros K H. destruct c as [s|s|src]; cbn [try_into] in H; [|injection H as <- <-; auto..].
  destruct (from_str_ok k s K) as (A & B & _). destruct (from_str k s) as [k' r]. cbn in A, B. subst r. cbn [css_sheet css_manager].
  destruct (parse s); injection H as <- <-; auto.
Qed.

Lemma did_ext e (st st' : Prop) w w' mi f g os r :
  (forall s, f s = g s) -> (st' -> st) -> did e st w w' mi f os r -> did e st' w w' mi g os r.
Proof. intros E Es [S D]. split; auto. destruct os as [s|]; auto. rewrite <- E. destruct D as (D1 & D2 & D3).
  split; auto. split; auto. intros Rr. destruct (D3 Rr). auto. Qed.

Lemma settles_steps e page w w' mi m m' :
  steps e w w' -> nth_error (w_mgrs w) mi = Some m -> nth_error (w_mgrs w') mi = Some m' ->
  settles e page m' <-> settles e page m.
Proof.
  intros S H H'. destruct (steps_like e w w' mi m S H) as (m1 & H1 & L1 & L2 & L3).
  destruct (steps_tied e w w' mi m S H) as (m2 & H2 & T1 & T2). rewrite H' in H1, H2. injection H1 as <-. injection H2 as <-.
  unfold settles. rewrite L2, T2. tauto.
Qed.

(** If the check of debug builds passes nothing panics. *)
Lemma impl_reports e page ids prefix src h w gs extra w' r mi m :
  good e page ids w gs (h :: source_handles src ++ extra) ->
  create_impl e prefix src h w = (w', r) ->
  handle_of (w_mhandles w) h = Some mi -> nth_error (w_mgrs w) mi = Some m ->
  rereads e (key_of prefix m (s_sheet src)) -> r <> Panicked.
Proof.
  intros G H Hh Hm Rr. unfold create_impl in H. cbv zeta in H.
  pose proof (good_cored _ _ _ _ _ _ G) as C0.
  destruct (drop_source_frame e w src C0) as (D1 & D2 & D3 & D4 & D5). cbv zeta in *.
  set (w1 := drop_source e src w) in *.
  assert (Hh1 : handle_of (w_mhandles w1) h = Some mi).
  { rewrite D4. destruct (existsb _ _) eqn:X; auto. apply existsb_exists in X. destruct X as (x & I & E). apply Nat.eqb_eq in E. subst x.
    pose proof (gd_owned _ _ _ _ _ _ G) as O. cbn in O. inversion O as [|? ? N _]; subst. exfalso. apply N.
    apply in_app_iff. left. apply in_app_iff. now left. }
  assert (S1 : steps e w w1) by apply steps_drop_source.
  destruct (steps_like e w w1 mi m S1 Hm) as (m1 & Hm1 & L1 & _).
  unfold manager_of in H. rewrite Hh1, Hm1 in H.
  replace (match prefix with Some p => style_key p (s_sheet src) | None => global_key m1 (s_sheet src) end)
    with (key_of prefix m (s_sheet src)) in H by (unfold key_of, global_key; rewrite L1; reflexivity).
  set (k := key_of prefix m (s_sheet src)) in *.
  destruct (step e w1 (OCreate h k)) as [w2 r2] eqn:S. injection H as _ <-.
  cbn [step] in S. rewrite Hh1 in S. unfold get_or_register in S. rewrite Hm1 in S.
  destruct (reg_get (m_reg m1) k); [injection S as _ <-; discriminate|]. cbv zeta in S.
  destruct (e_debug e) eqn:Dg; cbn [andb] in S.
  - destruct (Rr Dg (w_draws w1)) as [s Ps]. rewrite Ps in S. cbn [is_parsed negb] in S.
    destruct (m_data m1); [injection S as _ <-; discriminate|]. destruct (mount _ _ _ _ _); injection S as _ <-; discriminate.
  - destruct (m_data m1); [injection S as _ <-; discriminate|]. destruct (mount _ _ _ _ _); injection S as _ <-; discriminate.
Qed.

(** A style that can be put somewhere is created. *)
Lemma impl_succeeds e page ids prefix src h w gs extra w' r mi m :
  good e page ids w gs (h :: source_handles src ++ extra) ->
  create_impl e prefix src h w = (w', r) ->
  handle_of (w_mhandles w) h = Some mi -> nth_error (w_mgrs w) mi = Some m ->
  rereads e (key_of prefix m (s_sheet src)) -> settles e page m -> exists x, r = Created x.
Proof.
  intros G H Hh Hm Rr St. unfold create_impl in H. cbv zeta in H.
  pose proof (good_cored _ _ _ _ _ _ G) as C0.
  assert (G1 : good e page ids (drop_source e src w) gs (h :: extra)).
  { apply good_drop_source. eapply good_perm; [apply Permutation_refl| |exact G]. apply Permutation_middle. }
  destruct (drop_source_frame e w src C0) as (D1 & D2 & D3 & D4 & D5). cbv zeta in *.
  set (w1 := drop_source e src w) in *.
  assert (Hh1 : handle_of (w_mhandles w1) h = Some mi).
  { rewrite D4. destruct (existsb _ _) eqn:X; auto. apply existsb_exists in X. destruct X as (x & I & E). apply Nat.eqb_eq in E. subst x.
    pose proof (gd_owned _ _ _ _ _ _ G) as O. cbn in O. inversion O as [|? ? N _]; subst. exfalso. apply N.
    apply in_app_iff. left. apply in_app_iff. now left. }
  assert (S1 : steps e w w1) by apply steps_drop_source.
  destruct (steps_like e w w1 mi m S1 Hm) as (m1 & Hm1 & L1 & _).
  unfold manager_of in H. rewrite Hh1, Hm1 in H.
  replace (match prefix with Some p => style_key p (s_sheet src) | None => global_key m1 (s_sheet src) end)
    with (key_of prefix m (s_sheet src)) in H by (unfold key_of, global_key; rewrite L1; reflexivity).
  set (k := key_of prefix m (s_sheet src)) in *.
  assert (St1 : settles e page m1) by (apply (settles_steps e page w w1 mi m m1); auto).
  destruct (gd_reach _ _ _ _ _ _ G1) as (l & R & _).
  assert (K : exists w' x, step e w1 (OCreate h k) = (w', RHandle x)).
  { apply (create_succeeds_iff e page l w1 h mi m1 k R Hh1 Hm1). right. split; [intros Dg; now apply Rr|].
    destruct St1 as [X|[X|(X1 & X2 & c & X3 & X4)]]; auto. right. right. split; auto.
    assert (T : exists n, nth_error (w_dom w1) c = Some n).
    { destruct R as [rs R]. replace w1 with (fst (run e (start page) l)) by now rewrite R.
      assert (T : forall l w, takes (w_dom (fst (run e w l))) = takes (w_dom w)).
      { clear. induction l as [|o l IH]; intros w; [reflexivity|]. rewrite run_cons, IH. apply step_takes. }
      specialize (T l (start page)). cbn [w_dom start] in T. destruct X4 as (n0 & Hn0 & _).
      assert (K : nth_error (takes (w_dom (fst (run e (start page) l)))) c = Some (n_accepts n0)) by (rewrite T; unfold takes; now rewrite nth_error_map, Hn0).
      unfold takes in K. rewrite nth_error_map in K. destruct (nth_error (w_dom _) c); [eauto|discriminate]. }
    destruct T as [n Hn]. exists c, n. auto. }
  destruct K as (w2 & x & E). rewrite E in H. injection H as <- <-. exists x. reflexivity.
Qed.

Lemma cwm_spec e page ids loc prefix c h p gs extra p1 r :
  cache_ok (p_cache p) ->
  good e page ids (a_world (p_app p)) gs (h :: css_handles c ++ extra) ->
  create_with_manager e loc prefix c h p = (p1, r) ->
  p_app p1 = with_world (p_app p) (a_world (p_app p1)) /\ cache_ok (p_cache p1)
  /\ good e page ids (a_world (p_app p1)) gs extra
  /\ took (h :: css_handles c) (a_world (p_app p)) (a_world (p_app p1))
  /\ exists mi m, handle_of (w_mhandles (a_world (p_app p))) h = Some mi /\ nth_error (w_mgrs (a_world (p_app p))) mi = Some m
  /\ did e (settles e page m) (a_world (p_app p)) (a_world (p_app p1)) mi (key_of prefix m) (css_sheet c) r.
Proof.
  intros K G H. unfold create_with_manager in H. cbv zeta in H. destruct (try_into loc c (p_cache p)) as [k1 o] eqn:T.
  destruct (try_into_spec _ _ _ _ _ K T) as [K1 O]. destruct o as [src|].
  - destruct O as [O1 O2]. destruct (create_impl e prefix src h (a_world (p_app p))) as [w r'] eqn:I. injection H as <- <-.
    unfold css_handles in *. rewrite O2 in *. change (match s_manager src with Some h => [h] | None => [] end) with (source_handles src) in *.
    cbn [p_app p_cache a_world with_world].
    destruct (impl_spec e page ids prefix src h _ gs extra w r' G I) as (G1 & S & _ & T1 & mi & m & Hh & Hm & R).
    split; auto. split; auto. split; auto. split; [now apply took_of|]. exists mi, m. split; auto. split; auto.
    split; auto. rewrite O1. split; [|split; [eapply impl_reused; eauto|intros Rr; split; [eapply impl_reports; eauto|eapply impl_succeeds; eauto]]]. unfold made. destruct r'; auto. exfalso.
    unfold create_impl in I. cbv zeta in I. destruct (manager_of _ h); [|discriminate]. destruct (step _ _ (OCreate _ _)) as [w2 r2]. injection I as _ I.
    now destruct r2.
  - destruct O as [O1 O2]. injection H as <- <-. unfold css_handles in *. rewrite O2 in *. cbn [List.app] in G. cbn [p_app p_cache a_world with_world].
    change (drop_manager e h (a_world (p_app p))) with (step e (a_world (p_app p)) (ODropManager h)).
    pose proof (good_cored _ _ _ _ _ _ G) as C. destruct (drop_frame e _ h C) as (F1 & F2 & F3 & F4 & F5). cbv zeta in *.
    split; auto. split; auto. split; [now apply good_drop_manager|]. split.
    { apply took_of. intros j. rewrite F4. cbn. now rewrite orb_false_r. }
    pose proof (gd_live _ _ _ _ _ _ G) as Lv. apply Forall_inv in Lv. destruct Lv as [mi Hh].
    destruct (mlive_mgr e _ mi C) as [m Hm]; [now exists h|]. exists mi, m. split; auto. split; auto.
    split; [apply steps_one; tm|]. rewrite O1. split; auto. split; auto.
Qed.

(** More dropped afterwards. *)
Lemma did_drop e st page ids gs extra l w w1 mi f os r h :
  took l w w1 ->
  did e st w w1 mi f os r -> good e page ids w1 gs (h :: extra) ->
  did e st w (fst (step e w1 (ODropManager h))) mi f os r.
Proof.
  intros N [S D] G. pose proof (good_cored _ _ _ _ _ _ G) as C.
  destruct (drop_frame e w1 h C) as (F1 & F2 & F3 & F4 & F5). cbv zeta in *. set (w2 := fst (step e w1 (ODropManager h))) in *.
  assert (S2 : steps e w1 w2) by (apply steps_one; tm).
  split; [eapply steps_trans; eauto|]. destruct os as [s|].
  - assert (X : forall mj, mlive w2 mj -> mlive w1 mj).
    { intros mj [j Hj]. rewrite F4 in Hj. destruct (Nat.eqb h j); [discriminate|]. now exists j. }
    destruct D as (D & Re & Su). split; [|split; [|exact Su]].
    2:{ intros cid R. destruct (Re cid R) as (x & Ex & R1 & R2 & R3). exists x. split; auto. split; [congruence|]. split; [congruence|].
        intros A. apply nothing_new_trans with w1; [auto|]. apply nothing_new_same, F5. intros mj [j Hj]. apply A. exists j.
        destruct (in_dec Nat.eq_dec j l) as [I|I]; [rewrite (proj1 N j I) in Hj; discriminate|]. now rewrite <- (proj2 N j I). }
    unfold made in *. destruct r as [x| | |]; try congruence. destruct D as (cid & c & H1 & H2 & H3 & H4 & H5 & H6).
    destruct (steps_contents e w1 w2 cid c S2 H3) as (c2 & Hc2 & B). apply base_fields in B. destruct B as (B1 & B2 & B3 & B4 & B5).
    exists cid, c2. rewrite F1. split; auto. split; auto. split; auto. split; [congruence|]. split; [congruence|]. intros Lv.
    assert (Lv1 : mlive w1 mi). { destruct Lv as [j Hj]. rewrite F4 in Hj. destruct (Nat.eqb h j); [discriminate|]. now exists j. }
    destruct (HookTame.keep_step (fun _ _ => False) e w1 (ODropManager h) mi (f s) cid) as [K|K]; auto; [tm|].
    destruct K as [_ K]. destruct Lv as [j Hj]. now elim (K j).
  - destruct D as (D & D1 & D2 & D3). split; auto. split; [congruence|]. split; [congruence|]. intros A.
    assert (X : forall mj, mlive w2 mj -> mlive w1 mj).
    { intros mj [j Hj]. rewrite F4 in Hj. destruct (Nat.eqb h j); [discriminate|]. now exists j. }
    apply same_styles_trans with w1.
    + apply D3. auto.
    + apply F5. intros mj [j Hj]. apply A. exists j.
      destruct (in_dec Nat.eq_dec j l) as [I|I]; [rewrite (proj1 N j I) in Hj; discriminate|]. now rewrite <- (proj2 N j I).
Qed.
Lemma took_drop e l w w1 h : cored e w1 -> took l w w1 -> took (h :: l) w (fst (step e w1 (ODropManager h))).
Proof.
  intros C [T1 T2]. destruct (drop_frame e w1 h C) as (_ & _ & _ & F4 & _). cbv zeta in *. split; intros j I; rewrite F4.
  - destruct (Nat.eqb_spec h j) as [|N]; auto. destruct I; [congruence|auto].
  - destruct (Nat.eqb_spec h j) as [->|N]; [elim I; now left|]. apply T2. intros I'. apply I. now right.
Qed.

(** A manager is cloned first. *)
Lemma clone_frame e w h w1 h' :
  step e w (OCloneManager h) = (w1, RHandle h') ->
  w_handles w1 = w_handles w /\ w_draws w1 = w_draws w /\ same_styles w w1 /\ h' = List.length (w_mhandles w)
  /\ exists mi, handle_of (w_mhandles w) h = Some mi /\ w_mhandles w1 = w_mhandles w ++ [Some mi].
Proof.
  cbn [step]. unfold clone_manager. destruct (handle_of (w_mhandles w) h) as [mi|] eqn:E; [|discriminate].
  intros H. injection H as <- <-. cbn. repeat split; auto; [| |eauto].
  - intros (m & Hm & I). cbn in Hm. rewrite nth_upd in Hm. destruct (nth_error (w_mgrs w) mi0) as [m0|] eqn:E0; [|destruct (Nat.eqb mi mi0); discriminate].
    exists m0. split; auto. destruct (Nat.eqb mi mi0); cbn in Hm; injection Hm as <-; auto.
  - intros (m & Hm & I). unfold registered. cbn. rewrite nth_upd, Hm. destruct (Nat.eqb mi mi0); cbn; eauto.
Qed.
Lemma build_frame e w p c ap st w1 h :
  step e w (OBuild p c ap st) = (w1, RHandle h) ->
  w_handles w1 = w_handles w /\ w_draws w1 = w_draws w /\ same_styles w w1 /\ h = List.length (w_mhandles w)
  /\ w_mhandles w1 = w_mhandles w ++ [Some (List.length (w_mgrs w))]
  /\ exists c', w_mgrs w1 = w_mgrs w ++ [mk_mgr p c' ap (if st then Some [] else None) [] 1].
Proof.
  intros H. assert (K : w_handles w1 = w_handles w /\ w_draws w1 = w_draws w /\ w_dom w1 = w_dom w /\ w_contents w1 = w_contents w
    /\ h = List.length (w_mhandles w) /\ w_mhandles w1 = w_mhandles w ++ [Some (List.length (w_mgrs w))]
    /\ exists c', w_mgrs w1 = w_mgrs w ++ [mk_mgr p c' ap (if st then Some [] else None) [] 1]).
  { cbn [step] in H. unfold build in H. cbv zeta in H.
    destruct (e_wasm e); [destruct c as [c|]; [|destruct (e_document e); [destruct (e_head e)|]]|]; try discriminate;
      injection H as <- <-; cbn; repeat split; eauto. }
  destruct K as (K1 & K2 & K3 & K4 & K5 & K6 & c' & K7). split; auto. split; auto. split; [|eauto].
  repeat split; auto; intros (m & Hm & I).
  - rewrite K7 in Hm. destruct (le_lt_dec (List.length (w_mgrs w)) mi) as [L|L].
    + rewrite nth_error_app2 in Hm by lia. destruct (mi - List.length (w_mgrs w)) as [|n]; cbn in Hm; [|now destruct n].
      injection Hm as <-. now cbn in I.
    + rewrite nth_error_app1 in Hm by lia. now exists m.
  - exists m. split; auto. rewrite K7, nth_error_app1; auto. apply nth_error_Some. congruence.
Qed.

(** What stays in front of a call. *)
Lemma did_after e st w0 w w' mi f os r :
  steps e w0 w -> w_handles w = w_handles w0 -> w_draws w = w_draws w0 -> same_styles w0 w ->
  (forall mj, mlive w mj -> mlive w' mj \/ mlive w0 mj) ->
  did e st w w' mi f os r -> did e st w0 w' mi f os r.
Proof.
  intros S H1 H2 H3 L [S' D]. split; [eapply steps_trans; eauto|]. destruct os as [s|].
  - destruct D as (D & Re & Su). split; [unfold made in *; destruct r; try congruence; now rewrite <- H1|]. split; [|exact Su].
    intros cid R. destruct (Re cid) as (x & Ex & R1 & R2 & R3); [now apply H3|]. exists x. split; auto. split; [congruence|]. split; [congruence|].
    intros A. apply nothing_new_trans with w; [now apply nothing_new_same|]. apply R3. intros mj Lv. destruct (L _ Lv); auto.
  - destruct D as (D & D1 & D2 & D3). split; auto. split; [congruence|]. split; [congruence|]. intros A.
    apply same_styles_trans with w; auto. apply D3. intros mj Lv. destruct (L _ Lv); auto.
Qed.

(** ** The calls *)

Lemma nwm_spec e page ids loc c h p gs extra p1 r :
  cache_ok (p_cache p) ->
  good e page ids (a_world (p_app p)) gs (h :: css_handles c ++ extra) ->
  new_with_manager e loc c h p = (p1, r) ->
  p_app p1 = with_world (p_app p) (a_world (p_app p1)) /\ cache_ok (p_cache p1)
  /\ good e page ids (a_world (p_app p1)) gs extra
  /\ took (h :: css_handles c) (a_world (p_app p)) (a_world (p_app p1))
  /\ exists mi m, handle_of (w_mhandles (a_world (p_app p))) h = Some mi /\ nth_error (w_mgrs (a_world (p_app p))) mi = Some m
  /\ did e (settles e page m) (a_world (p_app p)) (a_world (p_app p1)) mi (key_of (Some (m_prefix m)) m) (css_sheet c) r.
Proof.
  intros K G H. unfold new_with_manager in H. cbv zeta in H. set (w0 := a_world (p_app p)) in *.
  pose proof (good_cored _ _ _ _ _ _ G) as C0.
  pose proof (gd_live _ _ _ _ _ _ G) as Lv. apply Forall_inv in Lv. destruct Lv as [mi Hh].
  destruct (mlive_mgr e _ mi C0) as [m Hm]; [now exists h|].
  unfold manager_of in H. rewrite Hh, Hm in H.
  destruct (step e w0 (OCloneManager h)) as [w1 rc] eqn:S.
  assert (R : rc = RHandle (List.length (w_mhandles w0))).
  { cbn [step] in S. unfold clone_manager in S. rewrite Hh in S. now injection S. }
  subst rc. destruct (clone_frame _ _ _ _ _ S) as (Q1 & Q2 & Q3 & _ & mi' & Hh' & Q4). rewrite Hh in Hh'. injection Hh' as <-.
  set (h' := List.length (w_mhandles w0)) in *.
  assert (G1 : good e page ids w1 gs (h' :: h :: css_handles c ++ extra)).
  { eapply good_fresh; eauto; try discriminate. rewrite Q4, handle_app_eq. now rewrite Nat.eqb_refl. }
  destruct (create_with_manager e loc (Some (m_prefix m)) c h' (mk_prog (with_world (p_app p) w1) (p_cache p))) as [p2 r2] eqn:W.
  injection H as <- <-. change (drop_manager e h (a_world (p_app p2))) with (step e (a_world (p_app p2)) (ODropManager h)).
  destruct (cwm_spec e page ids loc (Some (m_prefix m)) c h' (mk_prog (with_world (p_app p) w1) (p_cache p)) gs (h :: extra) p2 r2 K) with (2 := W) as (E & K2 & G2 & T & mi2 & m2 & Hh2 & Hm2 & D).
  { cbn [p_app p_cache a_world with_world]. eapply good_perm; [apply Permutation_refl| |exact G1]. constructor. apply Permutation_middle. }
  cbn [p_app p_cache a_world with_world] in *. set (w2 := a_world (p_app p2)) in *.
  rewrite Q4, handle_app_eq, Nat.eqb_refl in Hh2. injection Hh2 as <-.
  destruct (steps_like e w0 w1 mi m) as (m2' & Hm2' & L1 & _); [eapply steps_res; [|exact S]; tm|auto|]. rewrite Hm2 in Hm2'. injection Hm2' as <-.
  pose proof (good_cored _ _ _ _ _ _ G2) as C2.
  pose proof (did_drop e _ page ids gs extra _ _ _ _ _ _ _ h T D G2) as D'.
  pose proof (took_drop e _ _ _ h C2 T) as T'.
  split; [now rewrite E|]. split; auto. split; [now apply good_drop_manager|].
  set (w3 := fst (step e w2 (ODropManager h))) in *. split.
  { split; intros j I.
    - apply T'. destruct I; [now left|]. right. now right.
    - destruct (Nat.eq_dec j h') as [->|N].
      + rewrite (proj1 T'); [|right; now left]. symmetry. unfold handle_of. rewrite (proj2 (nth_error_None _ h')); auto.
      + rewrite (proj2 T'). 2: intros [X|[X|X]]; [apply I; now left|congruence|apply I; now right].
        rewrite Q4, handle_app_eq. fold h'. now destruct (Nat.eqb_spec j h'). }
  exists mi, m. split; auto. split; auto.
  apply (did_ext e (settles e page m2) (settles e page m) w0 w3 mi (key_of (Some (m_prefix m)) m2)); [auto| |].
  { apply (settles_steps e page w0 w1 mi m m2); auto. eapply steps_res; [|exact S]; tm. }
  apply (did_after e _ w0 w1); auto.
  - eapply steps_res; [|exact S]; tm.
  - intros mj [j Hj]. right. rewrite Q4, handle_app_eq in Hj. destruct (Nat.eqb j _); [injection Hj as <-; now exists h|now exists j].
Qed.

Lemma default_frame e page ids a a1 h :
  app_good e page ids a -> default_manager e a = Some (a1, h) ->
  good e page ids (a_world a1) (guards a1) (h :: dflt a1) /\ a_globals a1 = a_globals a
  /\ steps e (a_world a) (a_world a1) /\ w_handles (a_world a1) = w_handles (a_world a)
  /\ w_draws (a_world a1) = w_draws (a_world a) /\ same_styles (a_world a) (a_world a1)
  /\ handle_of (w_mhandles (a_world a)) h = None
  /\ exists d mi, a_default a1 = Some d /\ handle_of (w_mhandles (a_world a1)) d = Some mi
       /\ handle_of (w_mhandles (a_world a1)) h = Some mi
       /\ (a_default a = Some d /\ handle_of (w_mhandles (a_world a)) d = Some mi
           \/ a_default a = None /\ handle_of (w_mhandles (a_world a)) d = None)
       /\ forall j, j <> h -> j <> d -> handle_of (w_mhandles (a_world a1)) j = handle_of (w_mhandles (a_world a)) j.
Proof.
  intros G H. destruct (good_default e page ids a a1 h G H) as [G1 Eg]. destruct (steps_default _ _ _ _ H) as (S & _ & d & mi & D1 & D2 & D3).
  split; auto. split; auto. split; auto. clear S.
  assert (Z : forall l, handle_of l (@List.length (option nat) l) = None).
  { intros l. unfold handle_of. now rewrite (proj2 (nth_error_None l _)). }
  unfold default_manager in H. destruct (a_default a) as [d'|] eqn:Ed.
  - destruct (step e (a_world a) (OCloneManager d')) as [w [h'| | | | |]] eqn:S; try discriminate. injection H as <- <-.
    cbn [a_world with_world a_default] in *. rewrite Ed in D1. injection D1 as <-.
    destruct (clone_frame _ _ _ _ _ S) as (Q1 & Q2 & Q3 & Q4 & mi' & Hh & Q5). subst h'. split; auto. split; auto. split; auto. split; [apply Z|].
    exists d', mi. split; auto. split; auto. split; auto.
    assert (mi' = mi). { rewrite Q5, handle_app_eq, Nat.eqb_refl in D3. congruence. } subst mi'. split; auto.
    intros j N _. rewrite Q5, handle_app_eq. now destruct (Nat.eqb_spec j (List.length (w_mhandles (a_world a)))).
  - destruct (step e (a_world a) (OBuild _ None true false)) as [w [h0| | | | |]] eqn:S0; try discriminate.
    destruct (step e w (OCloneManager h0)) as [w1 [h'| | | | |]] eqn:S1; try discriminate. injection H as <- <-.
    cbn [a_world a_default] in *. injection D1 as <-.
    destruct (build_frame _ _ _ _ _ _ _ _ S0) as (P1 & P2 & P3 & P4 & P5 & _).
    destruct (clone_frame _ _ _ _ _ S1) as (Q1 & Q2 & Q3 & Q4 & mi' & Hh & Q5). subst h0 h'.
    split; [congruence|]. split; [congruence|]. split; [eapply same_styles_trans; eauto|].
    assert (Hn : handle_of (w_mhandles (a_world a)) (List.length (w_mhandles w)) = None).
    { unfold handle_of. rewrite (proj2 (nth_error_None _ _)); auto. rewrite P5, app_length. cbn. lia. }
    split; auto. exists (List.length (w_mhandles (a_world a))), mi. split; auto. split; auto. split; auto. split; [right; auto|].
    intros j N1 N2. rewrite Q5, handle_app_eq. destruct (Nat.eqb_spec j (List.length (w_mhandles w))); [easy|].
    rewrite P5, handle_app_eq. now destruct (Nat.eqb_spec j (List.length (w_mhandles (a_world a)))).
Qed.

Lemma good_add e page ids w gs extra h mi :
  good e page ids w gs extra -> ~ In h (extra ++ owned gs) -> handle_of (w_mhandles w) h = Some mi ->
  good e page ids w gs (h :: extra).
Proof. intros [R G S O L] N H. split; auto; cbn [List.app]; constructor; eauto. Qed.

Lemma user_handle_spec a h : user_handle a h = true ->
  ~ In h (dflt a ++ owned (guards a)) /\ exists mi, handle_of (w_mhandles (a_world a)) h = Some mi.
Proof.
  unfold user_handle. intros H. apply andb_prop in H. destruct H as [H1 H2]. apply free_not_in in H1. split; [exact H1|].
  destruct (handle_of _ h) as [mi|]; [eauto|discriminate].
Qed.

Lemma good_css e page ids a c :
  app_good e page ids a -> match css_manager c with Some h => user_handle a h | None => true end = true ->
  good e page ids (a_world a) (guards a) (css_handles c ++ dflt a).
Proof.
  intros G U. unfold css_handles. destruct (css_manager c) as [h|]; [|exact G]. apply user_handle_spec in U. destruct U as (U & mi & Hh).
  cbn [List.app]. eapply good_add; eauto.
Qed.

(** In the default manager, from the state in which it is cloned. *)
Lemma good_css_default e page ids a a1 h c :
  app_good e page ids a -> default_manager e a = Some (a1, h) ->
  match css_manager c with Some h => user_handle a h | None => true end = true ->
  good e page ids (a_world a1) (guards a1) (h :: css_handles c ++ dflt a1)
  /\ match css_manager c with Some h => user_handle a1 h | None => true end = true
  /\ (forall h0, In h0 (css_handles c) -> h0 <> h).
Proof.
  intros G H U. destruct (default_frame e page ids a a1 h G H) as (G1 & Eg & _ & _ & _ & _ & Hn & d & mi & D1 & D2 & D3 & D4 & D5).
  unfold css_handles. destruct (css_manager c) as [h0|]; [|cbn [List.app]; split; [exact G1|split; [reflexivity|intros h0 []]]].
  apply user_handle_spec in U. destruct U as (U & mj & Hh). cbn [List.app].
  assert (N1 : h0 <> h) by congruence.
  assert (N2 : h0 <> d).
  { destruct D4 as [[D4 _]|[_ D4]]; [|congruence]. intros ->. apply U. apply in_app_iff. left. unfold dflt. rewrite D4. now left. }
  assert (Hh1 : handle_of (w_mhandles (a_world a1)) h0 = Some mj) by (rewrite D5; auto).
  assert (N3 : ~ In h0 (dflt a1 ++ owned (guards a1))).
  { intros I. apply in_app_iff in I. destruct I as [I|I].
    - unfold dflt in I. rewrite D1 in I. destruct I as [I|[]]. congruence.
    - apply U. apply in_app_iff. right. unfold guards in *. now rewrite <- Eg. }
  split.
  - eapply good_perm; [apply Permutation_refl|apply perm_swap|]. eapply good_add; eauto.
    intros [I|I]; [congruence|auto].
  - split; [|intros x [<-|[]]; auto]. unfold user_handle. rewrite Hh1, andb_true_r.
    unfold free. destruct (existsb (Nat.eqb h0) (manager_handles a1)) eqn:X; auto. apply existsb_exists in X. destruct X as (x & I & E).
    apply Nat.eqb_eq in E. subst x. now elim N3.
Qed.

Definition default_did (e : env) (page : dom) (ids : list str) (a : app) (p1 : prog) (c : css)
    (f : mgr -> sheet -> key) (r : outcome) : Prop :=
  cache_ok (p_cache p1) /\ a_globals (p_app p1) = a_globals a
  /\ app_good e page ids (p_app p1)
  /\ exists d mi m, a_default (p_app p1) = Some d /\ handle_of (w_mhandles (a_world (p_app p1))) d = Some mi
       /\ (a_default a = Some d /\ handle_of (w_mhandles (a_world a)) d = Some mi
           \/ a_default a = None /\ handle_of (w_mhandles (a_world a)) d = None)
       /\ nth_error (w_mgrs (a_world (p_app p1))) mi = Some m
       /\ (forall j, In j (css_handles c) -> handle_of (w_mhandles (a_world (p_app p1))) j = None)
       /\ (forall j, ~ In j (css_handles c) -> j <> d ->
             handle_of (w_mhandles (a_world (p_app p1))) j = handle_of (w_mhandles (a_world a)) j)
       /\ did e (settles e page m) (a_world a) (a_world (p_app p1)) mi (f m) (css_sheet c) r.

Lemma key_of_like prefix m m' s : m_prefix m' = m_prefix m -> key_of prefix m' s = key_of prefix m s.
Proof. intros E. unfold key_of, global_key. now rewrite E. Qed.

Lemma create_default_spec e page ids loc prefix c p p1 r :
  cache_ok (p_cache p) -> app_good e page ids (p_app p) ->
  match css_manager c with Some h => user_handle (p_app p) h | None => true end = true ->
  default_manager e (p_app p) <> None ->
  create_default e loc prefix c p = (p1, r) ->
  default_did e page ids (p_app p) p1 c (key_of prefix) r.
Proof.
  intros K G U N H. unfold create_default in H. destruct (default_manager e (p_app p)) as [[a1 h]|] eqn:E; [|easy].
  destruct (default_frame e page ids _ a1 h G E) as (_ & Eg & S & A1 & A2 & A3 & Hn & d & mi & D1 & D2 & D3 & D4 & D5).
  destruct (good_css_default e page ids _ a1 h c G E U) as (G1 & U1 & Nh).
  destruct (cwm_spec e page ids loc prefix c h (mk_prog a1 (p_cache p)) (guards a1) (dflt a1) p1 r K) with (2 := H)
    as (Ea & K1 & G2 & T & mi' & m & Hh & Hm & D); [exact G1|]. cbn [p_app p_cache] in *.
  rewrite D3 in Hh. injection Hh as <-.
  assert (Ed : a_default (p_app p1) = Some d) by (rewrite Ea; exact D1).
  assert (Hd : handle_of (w_mhandles (a_world (p_app p1))) d = Some mi).
  { rewrite (proj2 T); auto. intros I. pose proof (gd_owned _ _ _ _ _ _ G1) as O. unfold dflt in O. rewrite D1 in O.
    rewrite app_comm_cons in O. rewrite <- app_assoc in O. cbn [List.app] in O.
    apply (NoDup_remove_2 (h :: css_handles c)) in O. apply O. apply in_app_iff. now left. }
  split; auto. split; [rewrite Ea; exact Eg|]. split.
  { unfold app_good, guards, dflt. rewrite Ed, Ea. cbn [a_globals with_world]. cbn [a_world]. unfold dflt in G2. rewrite D1 in G2. exact G2. }
  destruct (steps_like e _ _ mi m (proj1 D) Hm) as (m' & Hm' & L & _).
  exists d, mi, m'. split; auto. split; auto. split; auto. split; auto. split; [|split].
  - intros j I. apply T. now right.
  - intros j I Nd. destruct (Nat.eq_dec j h) as [->|Nj].
    + rewrite (proj1 T); [auto|now left].
    + rewrite (proj2 T); [auto|]. intros [X|X]; [congruence|auto].
  - eapply did_ext; [intros s; symmetry; apply key_of_like; exact L|apply (settles_steps e page _ _ mi m m' (proj1 D)); auto|].
    apply (did_after e _ _ (a_world a1)); auto. intros mj Lv.
    destruct Lv as [j Hj]. destruct (Nat.eq_dec j h) as [->|N1]; [left; exists d; congruence|].
    destruct (Nat.eq_dec j d) as [->|N2]; [left; exists d; congruence|]. right. exists j. now rewrite <- D5.
Qed.

Lemma default_again e page ids a a1 h : app_good e page ids a -> default_manager e a = Some (a1, h) -> default_manager e a1 <> None.
Proof.
  intros G H. destruct (steps_default _ _ _ _ H) as (_ & _ & d & mi & D1 & D2 & _). unfold default_manager. rewrite D1.
  cbn [step]. unfold clone_manager. rewrite D2. discriminate.
Qed.

Lemma new_default_spec e page ids loc c p p1 r :
  cache_ok (p_cache p) -> app_good e page ids (p_app p) ->
  match css_manager c with Some h => user_handle (p_app p) h | None => true end = true ->
  default_manager e (p_app p) <> None ->
  new_default e loc c p = (p1, r) ->
  default_did e page ids (p_app p) p1 c (fun m => key_of (Some (m_prefix m)) m) r.
Proof.
  intros K G U N H. unfold new_default in H. destruct (default_manager e (p_app p)) as [[a1 h]|] eqn:E; [|easy].
  destruct (default_frame e page ids _ a1 h G E) as (G1 & Eg & S & A1 & A2 & A3 & Hn & d & mi & D1 & D2 & D3 & D4 & D5).
  destruct (good_css_default e page ids _ a1 h c G E U) as (_ & U1 & Nh).
  pose proof (good_cored _ _ _ _ _ _ G1) as C1. destruct (mlive_mgr e _ mi C1) as [m Hm]; [now exists h|].
  unfold manager_of in H. rewrite D3, Hm in H.
  destruct (create_default e loc (Some (m_prefix m)) c (mk_prog a1 (p_cache p))) as [p2 r2] eqn:CD. injection H as <- <-.
  change (drop_manager e h (a_world (p_app p2))) with (step e (a_world (p_app p2)) (ODropManager h)).
  assert (Ga : app_good e page ids a1) by (apply good_forget in G1; apply G1).
  destruct (create_default_spec e page ids loc (Some (m_prefix m)) c (mk_prog a1 (p_cache p)) p2 r2 K Ga U1
              (default_again e page ids (p_app p) a1 h G E) CD)
    as (K2 & Eg2 & G2 & d2 & mi2 & m2 & B1 & B2 & B3 & B4 & B5 & B6 & D). cbn [p_app p_cache] in *.
  assert (B : d2 = d /\ mi2 = mi). { destruct B3 as [[X Y]|[X _]]; [|congruence]. rewrite D1 in X. injection X as ->. split; congruence. }
  destruct B as [-> ->]. clear B3.
  assert (Nd : h <> d). { pose proof (gd_owned _ _ _ _ _ _ G1) as O. unfold dflt in O. rewrite D1 in O. inversion O as [|? ? O1 _]; subst. intros ->. apply O1. now left. }
  assert (Hh2 : handle_of (w_mhandles (a_world (p_app p2))) h = Some mi).
  { rewrite B6; auto. intros I. now elim (Nh h I). }
  assert (G3 : good e page ids (a_world (p_app p2)) (guards (p_app p2)) (h :: dflt (p_app p2))).
  { eapply good_add; [exact G2| |exact Hh2]. intros I. apply in_app_iff in I. destruct I as [I|I].
    - unfold dflt in I. rewrite B1 in I. destruct I as [I|[]]; congruence.
    - pose proof (gd_owned _ _ _ _ _ _ G1) as O. inversion O as [|? ? O1 _]; subst. apply O1. apply in_app_iff. right.
      unfold guards in *. now rewrite <- Eg2. }
  pose proof (good_cored _ _ _ _ _ _ G3) as C2. destruct (drop_frame e _ h C2) as (_ & _ & _ & F4 & _). cbv zeta in F4.
  set (w3 := fst (step e (a_world (p_app p2)) (ODropManager h))) in *.
  assert (T : took (css_handles c) (a_world a1) (a_world (p_app p2))).
  { split; auto. intros j I. destruct (Nat.eq_dec j d) as [->|]; [congruence|auto]. }
  pose proof (did_drop e _ page ids _ _ _ _ _ _ _ _ _ h T D G3) as D'. fold w3 in D'.
  assert (S3 : steps e (a_world (p_app p2)) w3) by (apply steps_one; tm).
  destruct (steps_like e _ w3 mi m2 S3 B4) as (m3 & Hm3 & L3 & _).
  destruct (steps_like e _ w3 mi m (proj1 D') Hm) as (m3' & Hm3' & L3' & _). rewrite Hm3 in Hm3'. injection Hm3' as <-.
  unfold default_did. cbn [p_cache p_app a_world with_world a_globals a_default].
  split; auto. split; [congruence|]. split; [now apply good_drop_manager in G3|].
  exists d, mi, m3. split; auto. split; [rewrite F4; now destruct (Nat.eqb_spec h d)|]. split; auto. split; auto. split; [|split].
  - intros j I. rewrite F4. destruct (Nat.eqb h j); auto.
  - intros j I Nj. rewrite F4. destruct (Nat.eqb_spec h j) as [<-|]; [auto|]. rewrite B6, D5; auto.
  - eapply did_ext; [| |apply (did_after e _ _ (a_world a1) w3 mi _ _ _ S A1 A2 A3); [|exact D']].
    + intros s. cbn. now rewrite L3'.
    + apply (settles_steps e page _ _ mi m2 m3 S3); auto.
    + intros mj [j Hj]. destruct (Nat.eq_dec j h) as [->|N1]; [left; exists d; rewrite F4; destruct (Nat.eqb_spec h d); congruence|].
      destruct (Nat.eq_dec j d) as [->|N2]; [left; exists d; rewrite F4; destruct (Nat.eqb_spec h d); congruence|]. right. exists j. now rewrite <- D5.
Qed.

(** Everything about a call. *)
Lemma perform_spec e page ids loc c p p1 r :
  cache_ok (p_cache p) -> app_good e page ids (p_app p) -> user_call (p_app p) c = true ->
  (call_handle c = None -> default_manager e (p_app p) <> None) ->
  perform e loc c p = (p1, r) ->
  cache_ok (p_cache p1) /\ a_globals (p_app p1) = a_globals (p_app p) /\ app_good e page ids (p_app p1)
  /\ (forall d, a_default (p_app p) = Some d -> a_default (p_app p1) = Some d)
  /\ (call_handle c <> None -> a_default (p_app p1) = a_default (p_app p))
  /\ (forall j, In j (given c) -> handle_of (w_mhandles (a_world (p_app p1))) j = None)
  /\ (forall j, ~ In j (given c) -> a_default (p_app p1) <> Some j \/ a_default (p_app p) = Some j ->
        handle_of (w_mhandles (a_world (p_app p1))) j = handle_of (w_mhandles (a_world (p_app p))) j)
  /\ exists mi m, call_manager_is p p1 c mi /\ nth_error (w_mgrs (a_world (p_app p1))) mi = Some m
       /\ did e (settles e page m) (a_world (p_app p)) (a_world (p_app p1)) mi (wanted c m) (css_sheet (call_css c)) r.
Proof.
  intros K G U N H. unfold user_call in U. apply andb_prop in U. destruct U as [U U3]. apply andb_prop in U. destruct U as [U1 U2].
  assert (DD : forall f,
    default_did e page ids (p_app p) p1 (call_css c) f r -> call_handle c = None -> (forall m s, f m s = wanted c m s) ->
    cache_ok (p_cache p1) /\ a_globals (p_app p1) = a_globals (p_app p) /\ app_good e page ids (p_app p1)
    /\ (forall d, a_default (p_app p) = Some d -> a_default (p_app p1) = Some d)
    /\ (call_handle c <> None -> a_default (p_app p1) = a_default (p_app p))
    /\ (forall j, In j (given c) -> handle_of (w_mhandles (a_world (p_app p1))) j = None)
    /\ (forall j, ~ In j (given c) -> a_default (p_app p1) <> Some j \/ a_default (p_app p) = Some j ->
          handle_of (w_mhandles (a_world (p_app p1))) j = handle_of (w_mhandles (a_world (p_app p))) j)
    /\ exists mi m, call_manager_is p p1 c mi /\ nth_error (w_mgrs (a_world (p_app p1))) mi = Some m
         /\ did e (settles e page m) (a_world (p_app p)) (a_world (p_app p1)) mi (wanted c m) (css_sheet (call_css c)) r).
  { intros f (K1 & Eg & G1 & d & mi & m & B1 & B2 & B3 & B4 & B5 & B6 & D) Hc Ef.
    split; auto. split; auto. split; auto. split; [intros d' Ed; destruct B3 as [[B3 _]|[B3 _]]; congruence|]. split; [congruence|].
    assert (Eq : given c = css_handles (call_css c)) by (unfold given, css_handles; now rewrite Hc).
    rewrite Eq. split; auto. split.
    - intros j I [X|X]; [apply B6; auto; congruence|]. destruct B3 as [[B3 B3']|[B3 _]]; congruence.
    - exists mi, m. split; [|split; auto; eapply did_ext; [| |exact D]; auto]. unfold call_manager_is, context_is. rewrite Hc. eauto. }
  assert (GG : forall h, call_handle c = Some h ->
    good e page ids (a_world (p_app p)) (guards (p_app p)) (h :: css_handles (call_css c) ++ dflt (p_app p))).
  { intros h E. rewrite E in U1, U3. apply user_handle_spec in U1. destruct U1 as (X & mi & Hh).
    eapply good_add; [apply good_css; auto| |exact Hh]. intros I. apply X. rewrite <- app_assoc in I. apply in_app_iff in I.
    destruct I as [I|I]; auto. exfalso. unfold css_handles in I. destruct (css_manager (call_css c)) as [h'|]; [|easy].
    destruct I as [I|[]]. subst h'. now rewrite Nat.eqb_refl in U3. }
  assert (WW : forall h f, call_handle c = Some h ->
    p_app p1 = with_world (p_app p) (a_world (p_app p1)) /\ cache_ok (p_cache p1)
    /\ good e page ids (a_world (p_app p1)) (guards (p_app p)) (dflt (p_app p))
    /\ took (h :: css_handles (call_css c)) (a_world (p_app p)) (a_world (p_app p1))
    /\ (exists mi m, handle_of (w_mhandles (a_world (p_app p))) h = Some mi /\ nth_error (w_mgrs (a_world (p_app p))) mi = Some m
    /\ did e (settles e page m) (a_world (p_app p)) (a_world (p_app p1)) mi (f m) (css_sheet (call_css c)) r) ->
    (forall m m' s, m_prefix m' = m_prefix m -> f m s = wanted c m' s) ->
    cache_ok (p_cache p1) /\ a_globals (p_app p1) = a_globals (p_app p) /\ app_good e page ids (p_app p1)
    /\ (forall d, a_default (p_app p) = Some d -> a_default (p_app p1) = Some d)
    /\ (call_handle c <> None -> a_default (p_app p1) = a_default (p_app p))
    /\ (forall j, In j (given c) -> handle_of (w_mhandles (a_world (p_app p1))) j = None)
    /\ (forall j, ~ In j (given c) -> a_default (p_app p1) <> Some j \/ a_default (p_app p) = Some j ->
          handle_of (w_mhandles (a_world (p_app p1))) j = handle_of (w_mhandles (a_world (p_app p))) j)
    /\ exists mi m, call_manager_is p p1 c mi /\ nth_error (w_mgrs (a_world (p_app p1))) mi = Some m
         /\ did e (settles e page m) (a_world (p_app p)) (a_world (p_app p1)) mi (wanted c m) (css_sheet (call_css c)) r).
  { intros h f Hc (Ea & K1 & G1 & T & mi & m & Hh & Hm & D) Ef.
    assert (Eq : given c = h :: css_handles (call_css c)) by (unfold given, css_handles; now rewrite Hc).
    assert (Ed : a_default (p_app p1) = a_default (p_app p)) by now rewrite Ea.
    assert (Eg : a_globals (p_app p1) = a_globals (p_app p)) by now rewrite Ea.
    split; auto. split; auto. split; [unfold app_good, guards, dflt; rewrite Ed, Eg; exact G1|].
    split; [congruence|]. split; auto. rewrite Eq. split; [apply T|]. split; [intros j I _; now apply T|].
    destruct (steps_like e _ _ mi m (proj1 D) Hm) as (m' & Hm' & L & _). exists mi, m'.
    split; [unfold call_manager_is, context_is; now rewrite Hc|]. split; auto. eapply did_ext; [| |exact D]; auto. apply (settles_steps e page _ _ mi m m' (proj1 D)); auto. }
  destruct c as [c|x c|c h|x c h|c|c h]; cbn [call_css call_handle] in *; cbn [perform] in H.
  - apply (DD (fun m => key_of (Some (m_prefix m)) m)); auto. apply (new_default_spec e page ids loc); auto.
  - apply (DD (key_of (Some x))); auto. apply (create_default_spec e page ids loc); auto.
  - apply (WW h (fun m => key_of (Some (m_prefix m)) m)); auto; [eapply nwm_spec; eauto|]. intros m m' s E. cbn. now rewrite E.
  - apply (WW h (key_of (Some x))); auto. eapply cwm_spec; eauto.
  - apply (DD (key_of None)); auto. apply (create_default_spec e page ids loc); auto.
  - apply (WW h (key_of None)); auto; [eapply cwm_spec; eauto|]. intros m m' s E. cbn. now rewrite E.
Qed.

(** ** Programs *)

(** The default manager is as documented. *)
Definition dlike (e : env) (mi : nat) (w : world) : Prop :=
  exists m, nth_error (w_mgrs w) mi = Some m /\ m_prefix m = lit "stylist" /\ m_data m = None /\ m_append m = true
    /\ m_container m = if e_wasm e then e_head e else None.

Lemma dlike_step e mi w o : dlike e mi w -> dlike e mi (fst (step e w o)).
Proof.
  intros (m & Hm & H1 & H2 & H3 & H4). destruct (step_like e w o mi m Hm) as (m' & Hm' & L1 & L2 & L3).
  destruct (step_tied e w o mi m Hm) as (m2 & Hm2 & _ & T). rewrite Hm' in Hm2. injection Hm2 as <-.
  exists m'. repeat split; auto; congruence.
Qed.
Lemma dlike_steps e mi w w' : steps e w w' -> dlike e mi w -> dlike e mi w'.
Proof.
  intros S (m & Hm & H1 & H2 & H3 & H4). destruct (steps_like e w w' mi m S Hm) as (m' & Hm' & L1 & L2 & L3).
  destruct (steps_tied e w w' mi m S Hm) as (m2 & Hm2 & _ & T). rewrite Hm' in Hm2. injection Hm2 as <-.
  exists m'. repeat split; auto; congruence.
Qed.

(** Making the default manager first makes no difference. *)
Lemma default_first e page ids a :
  app_good e page ids a -> a_default a = None ->
  default_manager e a = None
  \/ exists a0 h0, default_manager e a = default_manager e a0 /\ a_default a0 = Some h0 /\ app_good e page ids a0
       /\ a_globals a0 = a_globals a /\ default_as_documented e a0
       /\ h0 = List.length (w_mhandles (a_world a))
       /\ (forall j, j <> h0 -> handle_of (w_mhandles (a_world a0)) j = handle_of (w_mhandles (a_world a)) j).
Proof.
  intros G E. unfold default_manager. rewrite E.
  destruct (step e (a_world a) (OBuild (lit "stylist") None true false)) as [w [h0| | | | |]] eqn:S; auto. right.
  destruct (build_frame _ _ _ _ _ _ _ _ S) as (P1 & P2 & P3 & P4 & P5 & c' & P6).
  exists (mk_app w (Some h0) (a_globals a)), h0. cbn [a_default a_world with_world a_globals]. split; auto. split; auto. split.
  { unfold app_good, dflt, guards in *. rewrite E in G. cbn [a_default a_world a_globals].
    eapply good_fresh; eauto; try discriminate. rewrite P5, handle_app_eq, <- P4, Nat.eqb_refl. reflexivity. }
  split; auto. split; [|split; auto].
  - intros d D. cbn [a_default a_world] in *. injection D as <-. exists (List.length (w_mgrs (a_world a))). eexists.
    split; [rewrite P5, handle_app_eq, <- P4, Nat.eqb_refl; reflexivity|]. split; [rewrite P6; apply nth_app_new|]. cbn. split; auto. split; auto. split; auto.
    assert (E' : c' = if e_wasm e then e_head e else None); [|now subst].
    cbn [step] in S. unfold build in S. cbv zeta in S. destruct (e_wasm e).
    + destruct (e_document e); [|discriminate]. destruct (e_head e); [|discriminate]. injection S as <- _. cbn in P6.
      apply app_inv_head in P6. now injection P6.
    + injection S as <- _. cbn in P6. apply app_inv_head in P6. now injection P6.
  - intros j N. rewrite P5, handle_app_eq, <- P4. now destruct (Nat.eqb_spec j h0).
Qed.

Lemma user_handle_first a a0 h0 h :
  a_default a = None -> a_default a0 = Some h0 -> a_globals a0 = a_globals a ->
  h0 = List.length (w_mhandles (a_world a)) ->
  (forall j, j <> h0 -> handle_of (w_mhandles (a_world a0)) j = handle_of (w_mhandles (a_world a)) j) ->
  user_handle a h = true -> user_handle a0 h = true.
Proof.
  intros E1 E2 E3 E4 E5 U. unfold user_handle in *. apply andb_prop in U. destruct U as [U1 U2].
  assert (N : h <> h0). { intros ->. subst h0. unfold handle_of in U2. now rewrite (proj2 (nth_error_None _ _)) in U2. }
  rewrite E5 by auto. rewrite U2, andb_true_r. unfold manager_handles, guards in *. rewrite E1 in U1. rewrite E2, E3.
  cbn [List.app free existsb] in *. destruct (Nat.eqb_spec h h0); [easy|]. exact U1.
Qed.

Lemma user_source_handle a src :
  user_source a src = match s_manager src with Some h => user_handle a h | None => true end.
Proof. unfold user_source, user_handle. now destruct (s_manager src). Qed.

Lemma astep_first y e page ids a o a1 :
  app_good e page ids a -> a_default a = None -> astep y e a o = Some a1 ->
  a_default a1 = None \/
  exists a0 h0, a_default a0 = Some h0 /\ app_good e page ids a0 /\ default_as_documented e a0 /\ astep y e a0 o = Some a1.
Proof.
  intros G E H. destruct (default_first e page ids a G E) as [D|(a0 & h0 & D1 & D2 & D3 & D4 & D5 & D6 & D7)].
  - left. destruct o as [o|ctx src|i ctx src|i|src|ctx src]; cbn [astep] in H.
    + destruct (free _ _ && free _ _); [|discriminate]. destruct (step e (a_world a) o) as [w [ | | | | | ]]; try discriminate; now injection H as <-.
    + unfold render_global in H. destruct ctx as [h|]; cbn [context_manager] in H; [|now rewrite D in H].
      destruct (step e (a_world a) (OCloneManager h)) as [w [x| | | | |]]; try discriminate. destruct (clone_source _ _ _) as [[? ?]|]; [|discriminate].
      destruct (memo _ _ _ _ _ _) as [[? ?]|]; [|discriminate]. now injection H as <-.
    + destruct (nth_error (a_globals a) i) as [[g|]|]; try discriminate.
      unfold render_global in H. destruct ctx as [h|]; cbn [context_manager] in H; [|now rewrite D in H].
      destruct (step e (a_world a) (OCloneManager h)) as [w [x| | | | |]]; try discriminate. destruct (clone_source _ _ _) as [[? ?]|]; [|discriminate].
      destruct (memo _ _ _ _ _ _) as [[? ?]|]; [|discriminate]. now injection H as <-.
    + destruct (nth_error (a_globals a) i) as [[g|]|]; try discriminate. now injection H as <-.
    + destruct (user_source a src); [|discriminate]. unfold into_classes in H. destruct (s_manager src) as [h|]; [|now rewrite D in H].
      destruct (new_style _ _ _ _) as [w2 [x| | | | |]]; try discriminate. cbv zeta in H. destruct (get_id _ x); [|discriminate]. now injection H as <-.
    + destruct (user_source a src); [|discriminate]. unfold use_style in H. destruct ctx as [h|]; cbn [context_manager] in H; [|now rewrite D in H].
      destruct (step e (a_world a) (OCloneManager h)) as [w [x| | | | |]]; try discriminate.
      cbv zeta in H. destruct (new_style _ _ _ _) as [w2 [z| | | | |]]; try discriminate. now injection H as <-.
  - destruct o as [o|ctx src|i ctx src|i|src|ctx src]; cbn [astep] in H.
    + left. destruct (free _ _ && free _ _); [|discriminate]. destruct (step e (a_world a) o) as [w [ | | | | | ]]; try discriminate; now injection H as <-.
    + destruct ctx as [h|].
      * left. unfold render_global in H. cbn [context_manager] in H.
        destruct (step e (a_world a) (OCloneManager h)) as [w [x| | | | |]]; try discriminate. destruct (clone_source _ _ _) as [[? ?]|]; [|discriminate].
        destruct (memo _ _ _ _ _ _) as [[? ?]|]; [|discriminate]. now injection H as <-.
      * right. exists a0, h0. split; auto. split; auto. split; auto. cbn [astep]. unfold render_global in *. cbn [context_manager] in *. now rewrite <- D1.
    + destruct ctx as [h|].
      * left. destruct (nth_error (a_globals a) i) as [[g|]|]; try discriminate. unfold render_global in H. cbn [context_manager] in H.
        destruct (step e (a_world a) (OCloneManager h)) as [w [x| | | | |]]; try discriminate. destruct (clone_source _ _ _) as [[? ?]|]; [|discriminate].
        destruct (memo _ _ _ _ _ _) as [[? ?]|]; [|discriminate]. now injection H as <-.
      * right. exists a0, h0. split; auto. split; auto. split; auto. cbn [astep]. rewrite D4.
        unfold render_global in *. cbn [context_manager] in *. now rewrite <- D1.
    + left. destruct (nth_error (a_globals a) i) as [[g|]|]; try discriminate. now injection H as <-.
    + destruct (s_manager src) as [h|] eqn:M.
      * left. destruct (user_source a src); [|discriminate]. unfold into_classes in H. rewrite M in H.
        destruct (new_style _ _ _ _) as [w2 [x| | | | |]]; try discriminate. cbv zeta in H. destruct (get_id _ x); [|discriminate]. now injection H as <-.
      * right. exists a0, h0. split; auto. split; auto. split; auto. cbn [astep]. rewrite user_source_handle in *. rewrite M in *.
        unfold into_classes in *. rewrite M in *. now rewrite <- D1.
    + destruct ctx as [h|].
      * left. destruct (user_source a src); [|discriminate]. unfold use_style in H. cbn [context_manager] in H.
        destruct (step e (a_world a) (OCloneManager h)) as [w [x| | | | |]]; try discriminate.
        cbv zeta in H. destruct (new_style _ _ _ _) as [w2 [z| | | | |]]; try discriminate. now injection H as <-.
      * right. exists a0, h0. split; auto. split; auto. split; auto. cbn [astep]. rewrite user_source_handle in *.
        assert (U : match s_manager src with Some h => user_handle a0 h | None => true end = true).
        { destruct (s_manager src) as [h|]; auto. eapply user_handle_first; eauto. now destruct (user_handle a h). }
        rewrite U. destruct (match s_manager src with Some h => user_handle a h | None => true end); [|discriminate].
        unfold use_style in *. cbn [context_manager] in *. now rewrite <- D1.
Qed.

(** A default manager that is as documented stays so. *)
Lemma default_stays e page ids a a1 d :
  app_good e page ids a1 -> steps e (a_world a) (a_world a1) -> a_default a = Some d -> a_default a1 = Some d ->
  default_as_documented e a -> default_as_documented e a1.
Proof.
  intros G S E E1 D d' Ed. rewrite E1 in Ed. injection Ed as <-. destruct (D d E) as (mi & m & Hd & Hm & K).
  destruct (dlike_steps e mi _ _ S) as (m1 & Hm1 & K1); [now exists m|]. exists mi, m1. split; auto.
  pose proof (gd_live _ _ _ _ _ _ G) as Lv. unfold dflt in Lv. rewrite E1 in Lv. apply Forall_inv in Lv. destruct Lv as [mj Hj].
  pose proof (passes_steps _ _ _ S) as [_ P]. pose proof (handle_nth _ _ _ Hd) as X.
  destruct (P d) as [Y|Y]; [apply nth_error_Some; congruence| |].
  - unfold handle_of. now rewrite Y, X.
  - unfold handle_of in Hj. now rewrite Y in Hj.
Qed.

Lemma default_astep y e page ids a o a1 :
  app_good e page ids a -> default_as_documented e a -> astep y e a o = Some a1 -> default_as_documented e a1.
Proof.
  assert (Z : forall a o a1, app_good e page ids a -> default_as_documented e a -> astep y e a o = Some a1 ->
              a_default a <> None -> default_as_documented e a1).
  { clear a o a1. intros a o a1 G D H N. destruct (a_default a) as [d|] eqn:E; [|easy].
    pose proof (good_astep y e page ids a o a1 G H) as G1.
    destruct (unregisters o) eqn:U.
    - destruct o as [o| | | | |]; try discriminate. cbn [astep] in H. destruct (free _ _ && free _ _); [|discriminate].
      intros d' Ed. assert (Ea : a1 = with_world a (fst (step e (a_world a) o))).
      { destruct (step e (a_world a) o) as [w [ | | | | | ]]; try discriminate; now injection H as <-. }
      subst a1. cbn [a_default a_world with_world] in *. destruct (D d' Ed) as (mi & m & Hd & Hm & K).
      destruct (dlike_step e mi (a_world a) o) as (m1 & Hm1 & K1); [now exists m|]. exists mi, m1. split; auto.
      apply step_mhandle_kept; auto. intros ->. discriminate.
    - destruct (steps_astep y e page ids a o a1 G H U) as [S Dd]. eapply default_stays; eauto. }
  intros G D H. destruct (a_default a) as [d|] eqn:E; [eapply Z; eauto; congruence|].
  destruct (astep_first y e page ids a o a1 G E H) as [E1|(a0 & h0 & E0 & G0 & D0 & H0)].
  - intros d Ed. congruence.
  - eapply Z; eauto. congruence.
Qed.

Definition pgood (e : env) (page : dom) (ids : list str) (p : prog) : Prop :=
  cache_ok (p_cache p) /\ app_good e page ids (p_app p) /\ default_as_documented e (p_app p).

Lemma perform_default e loc c p p1 r :
  call_handle c = None -> default_manager e (p_app p) = None -> perform e loc c p = (p1, r) -> p1 = p /\ r = Panicked.
Proof.
  intros Hc D H. destruct c as [c|x c|c h|x c h|c|c h]; try discriminate; cbn [perform] in H;
    unfold new_default, create_default in H; rewrite D in H; now injection H as <- <-.
Qed.

Lemma perform_first e loc c p a0 :
  call_handle c = None -> default_manager e (p_app p) = default_manager e a0 -> default_manager e a0 <> None ->
  perform e loc c p = perform e loc c (mk_prog a0 (p_cache p)).
Proof.
  intros Hc D N. destruct c as [c|x c|c h|x c h|c|c h]; try discriminate; cbn [perform];
    unfold new_default, create_default; cbn [p_app p_cache]; rewrite D; (destruct (default_manager e a0) as [[a1 h]|]; [reflexivity|now elim N]).
Qed.

Lemma user_call_first a a0 h0 c :
  a_default a = None -> a_default a0 = Some h0 -> a_globals a0 = a_globals a ->
  h0 = List.length (w_mhandles (a_world a)) ->
  (forall j, j <> h0 -> handle_of (w_mhandles (a_world a0)) j = handle_of (w_mhandles (a_world a)) j) ->
  user_call a c = true -> user_call a0 c = true.
Proof.
  intros E1 E2 E3 E4 E5 U. unfold user_call in *. apply andb_prop in U. destruct U as [U U3]. apply andb_prop in U. destruct U as [U1 U2].
  rewrite U3, andb_true_r. apply andb_true_intro. split.
  - destruct (call_handle c); auto. eapply user_handle_first; eauto.
  - destruct (css_manager (call_css c)); auto. eapply user_handle_first; eauto.
Qed.

Lemma perform_documented e page ids loc c p p1 r :
  pgood e page ids p -> user_call (p_app p) c = true ->
  (call_handle c = None -> default_manager e (p_app p) <> None) ->
  perform e loc c p = (p1, r) -> default_as_documented e (p_app p1).
Proof.
  intros (K & G & D) U N H.
  destruct (perform_spec e page ids loc c p p1 r K G U N H) as (K1 & Eg & G1 & Dd & De & _ & _ & mi & m & _ & _ & S & _).
  destruct (a_default (p_app p)) as [d|] eqn:E.
  - apply (default_stays e page ids (p_app p) (p_app p1) d); auto.
  - destruct (call_handle c) as [h|] eqn:Hc; [intros d Ed; rewrite De in Ed; [congruence|discriminate]|].
    destruct (default_first e page ids (p_app p) G E) as [X|(a0 & h0 & D1 & D2 & D3 & D4 & D5 & D6 & D7)]; [now elim (N eq_refl)|].
    assert (N0 : default_manager e a0 <> None) by (rewrite <- D1; auto).
    rewrite (perform_first e loc c p a0 Hc D1 N0) in H.
    destruct (perform_spec e page ids loc c (mk_prog a0 (p_cache p)) p1 r K D3) with (3 := H) as (_ & _ & _ & Dd' & _ & _ & _ & _ & _ & _ & _ & S' & _);
      [eapply user_call_first; eauto|intros _; exact N0|].
    apply (default_stays e page ids a0 (p_app p1) h0); auto.
Qed.

Lemma pgood_start e page : pgood e page [] (prog_start page).
Proof.
  split; [split; [constructor|intros k m []]|]. split; [apply good_start|]. intros d H. discriminate.
Qed.

Lemma pgood_pstep y e page ids p o p1 :
  pgood e page ids p -> pstep y e p o = Some p1 -> pgood e page (ids ++ ploaded [o]) p1.
Proof.
  intros (K & G & D) H. destruct o as [o|loc c|s]; cbn [pstep] in H.
  - destruct (astep y e (p_app p) o) as [a|] eqn:S; [|discriminate]. injection H as <-. split; auto. cbn [p_app]. split.
    + apply (good_astep y e page ids) in S; auto. replace (ploaded [PApp o]) with (aloaded [o]); auto. unfold aloaded, ploaded, loaded_ids. cbn. destruct o as [o| | | | |]; auto. destruct o; cbn; now rewrite ?app_nil_r.
    + eapply default_astep; eauto.
  - destruct (user_call (p_app p) c) eqn:U; [|discriminate]. destruct (perform e loc c p) as [p2 r] eqn:P.
    unfold ploaded. cbn [flat_map]. rewrite app_nil_r.
    assert (N : call_handle c = None -> default_manager e (p_app p) <> None).
    { intros Hc Dn. destruct (perform_default _ _ _ _ _ _ Hc Dn P) as [_ ->]. discriminate. }
    destruct (perform_spec e page ids loc c p p2 r K G U N P) as (K1 & _ & G1 & _).
    pose proof (perform_documented e page ids loc c p p2 r (conj K (conj G D)) U N P) as D1.
    destruct r; try discriminate; injection H as <-; (split; [|split]); auto.
  - injection H as <-. unfold ploaded. cbn [flat_map]. rewrite app_nil_r. split; [|split]; auto. cbn [p_cache]. now apply from_str_ok.
Qed.
Lemma pgood_prun y e page l : forall ids p p1,
  pgood e page ids p -> prun y e p l = Some p1 -> pgood e page (ids ++ ploaded l) p1.
Proof.
  induction l as [|o l IH]; intros ids p p1 G H; cbn [prun] in H.
  - injection H as <-. now rewrite app_nil_r.
  - destruct (pstep y e p o) as [p2|] eqn:S; [|discriminate]. apply (pgood_pstep _ _ _ _ _ _ _ G) in S.
    apply (IH _ _ _ S) in H. unfold ploaded in *. cbn [flat_map] in *. now rewrite app_nil_r, <- app_assoc in H.
Qed.
Lemma pgood_reached y e page l p : prun y e (prog_start page) l = Some p -> pgood e page (ploaded l) p.
Proof. intros H. now apply (pgood_prun _ _ _ _ _ _ _ (pgood_start e page)) in H. Qed.

Lemma steps_pstep y e page ids p o p1 :
  pgood e page ids p -> pstep y e p o = Some p1 -> punregisters o = false ->
  steps e (a_world (p_app p)) (a_world (p_app p1))
  /\ forall d, a_default (p_app p) = Some d -> a_default (p_app p1) = Some d.
Proof.
  intros (K & G & D) H U. destruct o as [o|loc c|s]; cbn [pstep] in H.
  - destruct (astep y e (p_app p) o) as [a|] eqn:S; [|discriminate]. injection H as <-. cbn [p_app]. eapply steps_astep; eauto.
  - destruct (user_call (p_app p) c) eqn:Uc; [|discriminate]. destruct (perform e loc c p) as [p2 r] eqn:P.
    assert (N : call_handle c = None -> default_manager e (p_app p) <> None).
    { intros Hc Dn. destruct (perform_default _ _ _ _ _ _ Hc Dn P) as [_ ->]. discriminate. }
    destruct (perform_spec e page ids loc c p p2 r K G Uc N P) as (_ & _ & _ & Dd & _ & _ & _ & mi & m & _ & _ & S & _).
    destruct r; try discriminate; injection H as <-; auto.
  - injection H as <-. cbn. split; [apply steps_refl|auto].
Qed.
Lemma steps_prun y e page l : forall ids p p1,
  pgood e page ids p -> prun y e p l = Some p1 -> existsb punregisters l = false ->
  steps e (a_world (p_app p)) (a_world (p_app p1))
  /\ forall d, a_default (p_app p) = Some d -> a_default (p_app p1) = Some d.
Proof.
  induction l as [|o l IH]; intros ids p p1 G H U; cbn [prun] in H.
  - injection H as <-. split; [apply steps_refl|auto].
  - cbn in U. apply orb_false_elim in U. destruct U as [U1 U2]. destruct (pstep y e p o) as [p2|] eqn:S; [|discriminate].
    destruct (steps_pstep _ _ _ _ _ _ _ G S U1) as [A B]. apply (pgood_pstep _ _ _ _ _ _ _ G) in S.
    destruct (IH _ _ _ S H U2) as [A' B']. split; [eapply steps_trans; eauto|auto].
Qed.
