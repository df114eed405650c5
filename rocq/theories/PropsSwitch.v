(** * PropsSwitch: what happens when a provider is given another manager (C64). *)

From Coq Require Import String Ascii List NArith Bool Arith Lia Permutation.
From Verif Require Import Str StrFacts Ast Render CssParser Ids IdFacts Manager SpecManager
  ManagerFacts ManagerInv ManagerSteps ManagerCore ManagerProps Hydrate Hooks SpecHooks
  HookFacts HookOnly HookTame PropsManager PropsHydrate PropsHooks Provider SpecProvider ProviderFacts PropsProvider SwitchFacts.
Import ListNotations.
Local Open Scope list_scope.
Local Opaque parse to_style_str.

(** A provider hydrated with the data [d] is rendered again with another manager.  It panics
    exactly if the data contradict what that manager knows.  Otherwise the components below find
    that manager, which now knows the names of the server as well.  The elements of the page stay
    if something else owns the first manager; if nothing does, those of its styles that user code
    does not hold are removed, although the second manager knows their names. *)
Theorem provider_other_manager_partial : forall y e page l a h d a1 p l2 a2 h2 mi mi2,
  arun y e (app_start page) l = Some a -> provide e h (Some d) a = Some (a1, p) ->
  arun y e a1 l2 = Some a2 ->
  handle_of (w_mhandles (a_world a2)) (v_context p) = Some mi ->
  handle_of (w_mhandles (a_world a2)) (v_dep p) = Some mi ->
  handle_of (w_mhandles (a_world a2)) h2 = Some mi2 -> mi2 <> mi ->
  (provide_again y e p h2 a2 = None <-> ~ data_fits (a_world a2) mi2 d)
  /\ forall a3 p2, provide_again y e p h2 a2 = Some (a3, p2) ->
       handle_of (w_mhandles (a_world a3)) (v_context p2) = Some mi2
       /\ (forall k id, known_as (a_world a3) mi2 k id
             <-> known_as (a_world a2) mi2 k id \/ exists r, In r d /\ r_key r = k /\ r_id r = id)
       /\ ((exists z, z <> v_context p /\ z <> v_dep p /\ handle_of (w_mhandles (a_world a2)) z = Some mi) ->
           w_dom (a_world a3) = w_dom (a_world a2)
           /\ forall k cid, registered (a_world a3) mi k cid <-> registered (a_world a2) mi k cid)
       /\ ((forall z, handle_of (w_mhandles (a_world a2)) z = Some mi -> z = v_context p \/ z = v_dep p) ->
           e_wasm e = true -> e_document e = true ->
           loads_nothing l -> loads_nothing l2 -> (forall r, In r d -> In (r_id r) (page_ids page)) ->
           ids_apart e page (w_draws (a_world a3)) ->
           forall r t, In r d -> known_as (a_world a2) mi (r_key r) (r_id r) ->
           (forall x, get_id (a_world a2) x <> Some (r_id r)) ->
           plain_ident (r_id r) = true -> texts_of (r_id r) page = [t] ->
           texts_of (r_id r) (w_dom (a_world a3)) = []).
Proof.
  intros y e page l a h d a1 p l2 a2 h2 mi mi2 R P R2 Hc Hd Hh Nm.
  pose proof (good_reached _ _ _ _ _ R) as G. destruct (provide_spec _ _ _ _ _ _ _ _ G P) as (mi0 & Hh0 & G1 & _).
  destruct (provider_takes _ _ _ _ _ _ _ P Hh0) as (_ & Vc & Vp & _).
  assert (Vd : v_data p = Some d).
  { clear -P. unfold provide in P. destruct (clone_handle e h (a_world a)) as [[w1 c]|]; [|discriminate].
    destruct (clone_handle e h w1) as [[w2 dep]|]; [|discriminate]. destruct (load_state e dep (Some d) w2); [|discriminate].
    injection P as _ <-. reflexivity. }
  pose proof (good_arun _ _ _ _ _ _ _ G1 R2) as G2. destruct (gd_reach _ _ _ _ _ _ G2) as (lr & Re & El).
  assert (Ncd : v_context p <> v_dep p) by (rewrite Vc, Vp; lia).
  destruct (other_manager_spec y e page lr a2 p h2 d mi mi2 Re Vd Hc Hd Ncd Hh Nm) as [Pn Ok].
  split; [exact Pn|]. intros a3 p2 H. destruct (Ok _ _ H) as (S & Hc2 & _ & _). split; [exact Hc2|].
  split; [apply (sw_known _ _ _ _ _ _ _ _ _ _ S)|]. split.
  - intros (z & Z1 & Z2 & Hz). exact (sw_kept _ _ _ _ _ _ _ _ _ _ S z Z1 Z2 Hz).
  - intros Own W D NL NL2 Ip Ap r t Ir (cid & c & Rg & Hk & Ei) Nh Pl Tx.
    rewrite (loads_nothing_ids _ NL), (loads_nothing_ids _ NL2), app_nil_r in El. cbn [List.app] in El.
    destruct (sw_reach _ _ _ _ _ _ _ _ _ _ S) as (l6 & R6 & L6). destruct Ap as [Ap1 Ap2].
    assert (NC : no_clash e page l6 (w_draws (a_world a3))).
    { split; [exact Ap1|]. split; [exact Ap2|]. intros id I. apply Ap2. apply L6 in I. rewrite El in I.
      assert (I' : In id (map r_id d)) by tauto. apply in_map_iff in I'. destruct I' as (r' & <- & I'). now apply Ip. }
    destruct (steps_contents _ _ _ _ _ _ (sw_steps _ _ _ _ _ _ _ _ _ _ S) Hk) as (c' & Hc' & B). apply base_fields in B.
    destruct B as (B1 & B2 & _ & B4 & B5). rewrite <- Ei, <- B1 in Pl, Tx |- *. pose proof (Ip r Ir) as Ipr. rewrite <- Ei, <- B1 in Ipr.
    pose proof (reaches_core _ _ _ _ R6) as C6.
    assert (Mc : c_mgr c = mi).
    { destruct Rg as (m & Hm & I). destruct (o_reg _ _ _ _ (reaches_core _ _ _ _ Re) _ _ Hm) as (_ & _ & Rk).
      destruct (Rk _ _ I) as (c1 & Hc1 & _ & M1). congruence. }
    eapply (dead_element e page l6 (a_world a3) cid c' t R6 NC W D Hc'); [|exact Pl|exact Ipr|exact Tx|].
    + destruct (c_hydrated c') eqn:Hy; [reflexivity|exfalso]. pose proof (o_origin _ _ _ _ C6 _ _ Hc') as O.
      rewrite Hy in O. destruct O as (n & Ln & Mn). revert Mn. unfold made_id. eapply not_drawn_new; [apply Ap2; exact Ipr|exact Ln].
    + intros [[x Hx]|(mj & k & m & Hm & I)].
      * rewrite (sw_held _ _ _ _ _ _ _ _ _ _ S) in Hx. apply (Nh x). unfold get_id, handle_content. rewrite Hx, Hk. cbn. now rewrite Ei.
      * destruct (o_reg _ _ _ _ C6 _ _ Hm) as (_ & Z & Rk). destruct (Rk _ _ I) as (c1 & Hc1 & _ & M1).
        rewrite Hc' in Hc1. injection Hc1 as <-. assert (mj = mi) as -> by congruence.
        destruct (Nat.eq_dec (m_strong m) 0) as [E0|E0]; [rewrite (Z E0) in I; destruct I|].
        pose proof (o_mcounted _ _ _ _ C6 mi) as M. unfold mstrong_of in M. rewrite Hm in M.
        assert (Q : In mi (live (w_mhandles (a_world a3)))) by (apply cnt_pos; rewrite <- M; lia).
        unfold live in Q. apply in_flat_map in Q. destruct Q as ([x|] & Q1 & Q2); [|destruct Q2]. destruct Q2 as [->|[]].
        apply In_nth_error in Q1. destruct Q1 as [z Q1]. assert (Hz : handle_of (w_mhandles (a_world a3)) z = Some mi) by (unfold handle_of; now rewrite Q1).
        destruct (sw_owners _ _ _ _ _ _ _ _ _ _ S z mi Hz) as [E|(Z1 & Z2 & Hz2)]; [congruence|].
        destruct (Own z Hz2); contradiction.
Qed.
Print Assumptions provider_other_manager_partial.

(** The program of the refutation, which lets the first manager go, and the same program when it
    keeps it: the element is gone, and stays. *)
Example provider_other_manager_ex : forall y, exists a a1 p a2 a3 p2 b3 q2,
  arun y demo_env (app_start ssr_page)
    [AOp (OBuild (lit "app") (Some 0) true false); AOp (OBuild (lit "app") (Some 0) true false)] = Some a
  /\ provide demo_env 0 (Some ssr_data) a = Some (a1, p)
  /\ arun y demo_env a1 [AOp (ODropManager 0)] = Some a2
  /\ handle_of (w_mhandles (a_world a2)) (v_context p) = Some 0 /\ handle_of (w_mhandles (a_world a2)) (v_dep p) = Some 0
  /\ handle_of (w_mhandles (a_world a2)) 1 = Some 1
  /\ provide_again y demo_env p 1 a2 = Some (a3, p2)
  /\ texts_of (lit "app-s0") (w_dom (a_world a3)) = []
  /\ provide_again y demo_env p 1 a1 = Some (b3, q2)
  /\ texts_of (lit "app-s0") (w_dom (a_world b3)) = texts_of (lit "app-s0") ssr_page
  /\ List.length (texts_of (lit "app-s0") ssr_page) = 1.
Proof.
  intros [[|] [|]]; do 8 eexists; do 10 (split; [vm_compute; reflexivity|]); vm_compute; reflexivity.
Qed.
