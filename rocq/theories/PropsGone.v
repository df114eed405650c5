(** * PropsGone: exactly which servers collect data that load (C58). *)

From Coq Require Import String Ascii List NArith Bool Arith Lia Permutation.
From Verif Require Import Str StrFacts Ast Render CssParser Ids IdFacts Manager SpecManager
  ManagerFacts ManagerInv ManagerSteps ManagerCore ManagerProps Hydrate Hooks SpecHooks
  HookFacts HookOnly HookTame HookOnce PropsManager PropsHooks PropsHydrate PropsGlobal GoneFacts.
Import ListNotations.
Local Open Scope list_scope.
Local Opaque parse to_style_str.

(** The data that a server collected load into a fresh manager if and only if the server mounted
    no CSS again in that manager after a [Global] with it was gone.  Otherwise loading panics. *)
Theorem global_server_data_loads_iff : forall y e page l a h mi m d ec pc lc wc hc mc,
  arun y e (app_start page) l = Some a -> Forall serves l ->
  handle_of (w_mhandles (a_world a)) h = Some mi ->
  nth_error (w_mgrs (a_world a)) mi = Some m -> m_data m <> None ->
  ids_apart e page (w_draws (a_world a)) ->
  snd (step e (a_world a) (ORead h)) = RData d ->
  reaches ec pc lc wc -> handle_of (w_mhandles wc) hc = Some mc ->
  (forall k cid, ~ registered wc mc k cid) ->
  (snd (step ec wc (OLoad hc d)) = RDone <-> orderly y e (app_start page) l mi [])
  /\ (snd (step ec wc (OLoad hc d)) = RPanic <-> ~ orderly y e (app_start page) l mi []).
Proof.
  intros y e page l a h mi m d ec pc lc wc hc mc R F Hh Hm Hd Ap Rd Rc Hc Nr.
  assert (L1 : orderly y e (app_start page) l mi [] -> snd (step ec wc (OLoad hc d)) = RDone).
  { intros Or. destruct (global_server_data_loads_partial _ _ _ _ _ _ _ _ _ _ _ _ _ _ R Or Hh Rd Rc Hc Nr) as (w1 & -> & _). reflexivity. }
  destruct (style_data_loads_iff ec pc lc wc hc mc d Rc Hc) as (w1 & res & Es & Two & Fits & _).
  assert (L2 : res = RDone -> orderly y e (app_start page) l mi []).
  { intros Ed. apply Fits in Ed. destruct Ed as [_ Un].
    pose proof (good_start e page) as G0. pose proof (good_reached _ _ _ _ _ R) as G.
    assert (NL : loads_nothing l).
    { intros h' d' I. rewrite Forall_forall in F. apply F in I. cbn in I. destruct I; discriminate. }
    rewrite (loads_nothing_ids _ NL) in G.
    assert (O0 : only (a_world (app_start page)) (guards (app_start page))).
    { split; [|intros mj k cid (m' & Hm' & _); now destruct mj in Hm']. cbn. intros x cid H0. unfold handle_of in H0. now destruct x. }
    destruct (orderly_or_clash y e page mi l [] (app_start page) a [] G0 O0 R F) as [Or|K]; [intros s []|exact Or|]. exfalso. apply K.
    pose proof (good_core _ _ _ _ _ _ G) as Co. destruct (gd_reach _ _ _ _ _ _ G) as (l0 & Re & El).
    assert (NC : no_clash e page l0 (w_draws (a_world a))) by now apply ids_no_clash.
    pose proof (reaches_inv _ _ _ _ Re NC) as Iv. destruct (i_ids _ _ _ _ _ Iv) as [_ Ui].
    cbn [step] in Rd. rewrite Hh in Rd. cbn [snd] in Rd. unfold Manager.read_data in Rd. rewrite Hm in Rd. injection Rd as <-.
    destruct (m_data m) as [ld|] eqn:Ld; [|now elim Hd].
    pose proof (o_data _ _ _ _ Co _ _ _ Hm Ld) as Ed. 
    assert (Mk : forall i c, nth_error (w_contents (a_world a)) i = Some c -> c_mgr c = mi ->
              c_hydrated c = false /\ In (record_of c) ld).
    { intros i c Hi Mc. assert (Hy : c_hydrated c = false).
      { pose proof (o_origin _ _ _ _ Co _ _ Hi) as Or. destruct (c_hydrated c); [contradiction|reflexivity]. }
      split; [exact Hy|]. rewrite Ed. apply in_map. apply filter_In. split; [eapply nth_error_In; exact Hi|].
      unfold made_by. now rewrite Hy, Mc, Nat.eqb_refl. }
    intros i j c x Hi Hj Mc Mx Ek. destruct (Mk i c Hi Mc) as [Hy I1]. destruct (Mk j x Hj Mx) as [_ I2].
    destruct (Nat.eq_dec i j) as [E|N]; [exact E|exfalso]. apply (Ui i j c x Hi Hj N Hy).
    exact (Un _ _ I1 I2 Ek). }
  rewrite Es in L1 |- *. cbn [snd] in L1 |- *. split; split.
  - exact L2.
  - exact L1.
  - intros -> Or. specialize (L1 Or). discriminate.
  - intros N. destruct Two as [E|E]; [exfalso; now apply N, L2|exact E].
Qed.
Print Assumptions global_server_data_loads_iff.

(** Both kinds of servers: one that mounts two [Global]s with one CSS at the same time, and one that
    mounts the CSS again while a second [Global] with it is still there. *)
Definition again_ops : list aop :=
  [ AOp (OBuild (lit "app") None true true);
    AMount (Some 0) (demo_source "red"); AMount (Some 0) (demo_source "red");
    AUseStyle (Some 0) (demo_source "red");
    AUnmount 0; AMount (Some 0) (demo_source "red"); AUnmount 1; AUnmount 2 ].
Example global_server_data_loads_iff_ex : forall y, exists a b d d',
  arun y server_env (app_start []) server_ops = Some a /\ Forall serves server_ops
  /\ orderly y server_env (app_start []) server_ops 0 []
  /\ arun y server_env (app_start []) again_ops = Some b /\ Forall serves again_ops
  /\ snd (step server_env (a_world a) (ORead 0)) = RData d /\ List.length d = 3
  /\ snd (step server_env (a_world b) (ORead 0)) = RData d' /\ List.length d' = 3
  /\ map r_key d' = [mk_key true (lit "app") (demo_sheet "red"); mk_key false (lit "app") (demo_sheet "red");
                     mk_key true (lit "app") (demo_sheet "red")]
  /\ snd (run demo_env (start demo_page) [OBuild (lit "app") None true false; OLoad 0 d]) = [RHandle 0; RDone]
  /\ snd (run demo_env (start demo_page) [OBuild (lit "app") None true false; OLoad 0 d']) = [RHandle 0; RPanic].
Proof.
  intros [[|] [|]]; do 4 eexists; (split; [vm_compute; reflexivity|]);
    (split; [repeat (constructor; [first [exact Logic.I|split; reflexivity]|]); constructor|]);
    (split; [apply orderlyb_ok; now vm_compute|]); (split; [vm_compute; reflexivity|]);
    (split; [repeat (constructor; [first [exact Logic.I|split; reflexivity]|]); constructor|]);
    (split; [vm_compute; reflexivity|]); (split; [reflexivity|]);
    (split; [vm_compute; reflexivity|]); (split; [reflexivity|]); (split; [vm_compute; reflexivity|]); split; vm_compute; reflexivity.
Qed.
