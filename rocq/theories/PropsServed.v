(** * PropsServed: a page from the server to the hydrated client (C74). *)

From Coq Require Import String Ascii List NArith Bool Arith Lia.
From Verif Require Import Str StrFacts Ast Render CssParser Ids IdFacts Manager SpecManager
  ManagerFacts ManagerInv ManagerSteps ManagerCore ManagerProps Hydrate Hooks SpecHooks
  HookFacts HookOnly HookKeep PropsManager StaticData SpecHydrate PropsHydrate PropsHooks Provider SpecProvider ProviderFacts
  PropsProvider PropsGlobal SpecCreate Create PropsCreate PropsRender SpecRender SpecPage PropsPage SpecServed.
Import ListNotations.
Local Open Scope list_scope.
Local Opaque parse to_style_str.

(** ** Markup is read in one way *)

Lemma cut_at_unique stop : forall s a b, cut_at stop s a b -> forall a' b', cut_at stop s a' b' -> a = a' /\ b = b'.
Proof.
  induction 1 as [s|c s a b N C IH]; intros a' b' C'.
  - remember (stop ++ s) as t eqn:Et. destruct C' as [s'|c s' a' b' N' C'].
    + apply app_inv_head in Et. now subst.
    + elim N'. exists s. exact Et.
  - remember (c :: s) as t eqn:Et. destruct C' as [s'|c' s' a' b' N' C'].
    + elim N. eauto.
    + injection Et as -> ->. destruct (IH _ _ C') as [-> ->]. auto.
Qed.
Lemma reads_as_unique s l : reads_as s l -> forall l', reads_as s l' -> l = l'.
Proof.
  induction 1 as [|s s1 s2 id text l C1 C2 _ IH]; intros l' H.
  - now inversion H.
  - remember (lit "<style data-style=""" ++ s) as t eqn:Et. destruct H as [|s' s1' s2' id' text' l' D1 D2 H].
    + discriminate Et.
    + apply app_inv_head in Et. subst s'. destruct (cut_at_unique _ _ _ _ C1 _ _ D1) as [<- E1]. injection E1 as <-.
      destruct (cut_at_unique _ _ _ _ C2 _ _ D2) as [<- E2]. injection E2 as <-. f_equal. auto.
Qed.
Lemma markup_reads esc d : markup_safe esc d -> reads_as (static_markup esc d) (map (fun r => (r_id r, r_text r)) d).
Proof.
  intros H. set (esc' := fun s : str => if existsb (fun r => str_eqb (r_text r) s) d then s else []).
  assert (E : static_markup esc d = static_markup esc' d /\ map (fun r => (r_id r, r_text r)) d = map (fun r => (r_id r, esc' (r_text r))) d).
  { assert (X : forall r, In r d -> esc' (r_text r) = r_text r).
    { intros r I. unfold esc'. destruct (existsb _ d) eqn:Y; auto. assert (existsb (fun r0 => str_eqb (r_text r0) (r_text r)) d = true); [|congruence].
      apply existsb_exists. exists r. split; auto. apply str_eqb_refl. }
    split.
    - unfold static_markup. clearbody esc'. clear - H X. induction d as [|r d IH]; [reflexivity|]. cbn [flat_map].
      rewrite IH; [|intros z I; apply H; now right|intros z I; apply X; now right].
      f_equal. unfold element_markup. rewrite X by now left. destruct (H r (or_introl eq_refl)) as (_ & _ & ->). reflexivity.
    - apply map_ext_in. intros r I. now rewrite X. }
  destruct E as [-> ->]. apply static_markup_lists_records.
  - intros s. unfold esc'. destruct (existsb _ d) eqn:Y.
    + apply existsb_exists in Y. destruct Y as (r & I & E). apply str_eqb_eq in E. subst s. apply H, I.
    + intros (a & b & E). destruct a; discriminate.
  - intros r I. apply H, I.
Qed.

(** ** What the page holds *)

Lemma page_styles_ids page : page_ids page = map fst (page_styles page).
Proof.
  unfold page_ids, page_styles. induction page as [|n page IH]; [reflexivity|]. cbn [flat_map]. rewrite map_app, IH. f_equal.
  unfold child_ids. clear. induction (n_children n) as [|[i t|] l IH]; cbn; auto. now rewrite IH.
Qed.
Lemma page_texts page id :
  (forall n, In n page -> n_in_document n = false -> child_ids (n_children n) = []) ->
  texts_of id page = flat_map (fun p => if str_eqb (fst p) id then [snd p] else []) (page_styles page).
Proof.
  intros H. unfold texts_of, page_styles. induction page as [|n page IH]; [reflexivity|]. cbn [flat_map]. rewrite flat_map_app, <- IH.
  - f_equal. assert (E : texts_in id (n_children n)
      = flat_map (fun p => if str_eqb (fst p) id then [snd p] else []) (flat_map (fun c => match c with EStyle i t => [(i, t)] | EOther => [] end) (n_children n))).
    { unfold texts_in. clear. induction (n_children n) as [|[i t|] l IH]; cbn [flat_map]; auto. rewrite flat_map_app, <- IH. cbn. now rewrite app_nil_r. }
    destruct (n_in_document n) eqn:D; [exact E|]. rewrite <- E.
    pose proof (H n (or_introl eq_refl) D) as X. unfold child_ids in X. unfold texts_in. clear - X.
    induction (n_children n) as [|[i t|] l IH]; cbn in *; auto. discriminate.
  - intros z I. apply H. now right.
Qed.
Lemma one_text (d : list record) r : NoDup (map r_id d) -> In r d ->
  flat_map (fun p => if str_eqb (fst p) (r_id r) then [snd p] else []) (map (fun r => (r_id r, r_text r)) d) = [r_text r].
Proof.
  assert (Z : forall l : list record, ~ In (r_id r) (map r_id l) ->
    flat_map (fun p => if str_eqb (fst p) (r_id r) then [snd p] else []) (map (fun r => (r_id r, r_text r)) l) = []).
  { induction l as [|z l IH]; intros N; [reflexivity|]. cbn. destruct (str_eqb (r_id z) (r_id r)) eqn:E.
    - apply str_eqb_eq in E. elim N. now left.
    - apply IH. intros X. apply N. now right. }
  induction d as [|z d IH]; intros ND I; [contradiction|]. cbn in ND. inversion ND as [|? ? N1 N2]; subst. cbn [map flat_map fst snd].
  destruct I as [->|I].
  - rewrite str_eqb_refl, Z by auto. reflexivity.
  - destruct (str_eqb (r_id z) (r_id r)) eqn:E; [|now apply IH]. apply str_eqb_eq in E. elim N1. rewrite E. now apply in_map.
Qed.

(** ** The records of the server *)

Lemma distinct_ids (P : content -> bool) (l : list content) :
  (forall i j c d, nth_error l i = Some c -> nth_error l j = Some d -> i <> j -> P c = true -> c_id c <> c_id d) ->
  NoDup (map c_id (filter P l)).
Proof.
  induction l as [|c l IH]; intros H; [constructor|]. cbn [filter].
  assert (NoDup (map c_id (filter P l))).
  { apply IH. intros i j a b Hi Hj N. apply (H (S i) (S j)); auto. }
  destruct (P c) eqn:E; auto. constructor; auto. intros I. apply in_map_iff in I. destruct I as (d & Ed & I).
  apply filter_In in I. destruct I as [I _]. apply In_nth_error in I. destruct I as [j Hj].
  apply (H 0 (S j) c d); auto.
Qed.

(** Of a manager that keeps data: what it hands over. *)
Lemma served_records e page a p mi :
  app_good e page [] a -> ids_apart e page (w_draws (a_world a)) ->
  handle_of (w_mhandles (a_world a)) (v_context p) = Some mi -> keeps_data (a_world a) mi ->
  NoDup (map r_id (server_state e p a))
  /\ forall r, In r (server_state e p a) -> k_global (r_key r) = false ->
       r_text r = to_style_str (Some (r_id r)) (k_ast (r_key r))
       /\ exists n, r_id r = new_id false (k_prefix (r_key r)) (e_draw e n).
Proof.
  intros R [A1 A2] Hp (m & d & Hm & Hd).
  destruct (gd_reach _ _ _ _ _ _ R) as (lr & Re & El).
  assert (NC : no_clash e page lr (w_draws (a_world a))) by (split; [auto|split; [auto|rewrite El; intros ? []]]).
  pose proof (reaches_inv _ _ _ _ Re NC) as I.
  unfold server_state. rewrite (static_data_lists_created_styles _ _ _ _ _ _ _ Re Hp Hm) by congruence.
  split.
  - rewrite map_map. cbn [r_id]. change (fun x => c_id x) with c_id. apply distinct_ids.
    intros i j c x Hi Hj N Pc. apply andb_prop in Pc. destruct Pc as [Pc _]. apply negb_true_iff in Pc.
    destruct (i_ids _ _ _ _ _ I) as [_ U]. now apply (U i j).
  - intros r Ir Kg. apply in_map_iff in Ir. destruct Ir as (c & <- & Ic). cbn [r_id r_text r_key] in *.
    apply filter_In in Ic. destruct Ic as [Ic Pc]. apply andb_prop in Pc. destruct Pc as [Pc _]. apply negb_true_iff in Pc.
    apply In_nth_error in Ic. destruct Ic as [cid Hc]. split.
    + symmetry. eapply hydrated_text_scoped_partial; eauto.
    + destruct (i_ids _ _ _ _ _ I) as [O _]. specialize (O _ _ Hc). rewrite Pc in O. destruct O as (n & _ & M). exists n.
      unfold made_id in M. now rewrite M, Kg.
Qed.

(** ** C74: from the server to the hydrated page *)

Theorem served_page_works :
  forall ys es ps ls sa sctx smi prefix s sa1 id ls2 sa2 sp esc yc ec pc lc ca h mi ca1 p lc2 ca2 ctx,
  (* the server: a component with the sheet [s] is rendered below a provider, among others *)
  arun ys es (app_start ps) ls = Some sa -> loads_nothing ls ->
  handle_of (w_mhandles (a_world sa)) sctx = Some smi -> manager_prefix (a_world sa) smi prefix ->
  component_class es sctx s sa sa1 id ->
  arun ys es sa1 ls2 = Some sa2 -> loads_nothing ls2 ->
  handle_of (w_mhandles (a_world sa2)) (v_context sp) = Some smi -> keeps_data (a_world sa2) smi ->
  plain_prefix prefix -> closed_sheet s -> names_fresh es ps (w_draws (a_world sa2)) ->
  (* its styles are written into the page that the client shows *)
  markup_safe esc (server_state es sp sa2) -> page_of (static_markup esc (server_state es sp sa2)) pc ->
  (* the client: a provider is hydrated with the server's state, and components are rendered *)
  e_wasm ec = true -> e_document ec = true ->
  arun yc ec (app_start pc) lc = Some ca -> loads_nothing lc ->
  handle_of (w_mhandles (a_world ca)) h = Some mi ->
  provide ec h (Some (server_state es sp sa2)) ca = Some (ca1, p) ->
  arun yc ec ca1 lc2 = Some ca2 -> loads_nothing lc2 -> existsb unregisters lc2 = false ->
  ids_apart ec pc (w_draws (a_world ca2)) ->
  handle_of (w_mhandles (a_world ca2)) ctx = Some mi -> manager_prefix (a_world ca2) mi prefix ->
  (* the page says what the sheet says, when it is loaded and at any time later *)
  page_says (a_world (app_start pc)) id (sheet_decls (Some id) s)
  /\ page_says (a_world ca2) id (sheet_decls (Some id) s)
  (* and the component has its class on the client *)
  /\ (forall src, user_source ca2 src = true -> s_sheet src = s -> exists ca3 x,
        use_style ec (Some ctx) src ca2 = Some (ca3, x) /\ get_id (a_world ca3) x = Some id)
  /\ (forall loc, exists ca0 src ca3,
        component_css ec (Some ctx) loc s ca2 = Some (ca0, src)
        /\ into_classes ec src ca0 = Some (ca3, id :: match loc with Some x => [x] | None => [] end)).
Proof.
  intros ys es ps ls sa sctx smi prefix s sa1 id ls2 sa2 sp esc yc ec pc lc ca h mi ca1 p lc2 ca2 ctx
    R1 N1 H1 P1 C1 R2 N2 H2 K2 Pp Cl Fr Ms [Pg Pd] W Dc R3 N3 H3 P3 R4 N4 U4 Ap H4 P4.
  destruct (server_data_lists_classes _ _ _ _ _ _ _ _ _ _ _ _ _ _ R1 N1 H1 P1 C1 R2 N2 H2 K2) as (r & Ir & Ek & Ei).
  assert (Sr : NoDup (map r_id (server_state es sp sa2))
    /\ forall r, In r (server_state es sp sa2) -> k_global (r_key r) = false ->
       r_text r = to_style_str (Some (r_id r)) (k_ast (r_key r))
       /\ exists n, r_id r = new_id false (k_prefix (r_key r)) (e_draw es n)).
  { apply (served_records es ps sa2 sp smi); auto; [|apply Fr].
    pose proof (good_reached _ _ _ _ _ R1) as G. rewrite (loads_nothing_ids _ N1) in G.
    destruct (class_content _ _ _ _ _ _ _ _ _ _ G H1 P1 C1) as (G1 & _). pose proof (good_arun _ _ _ _ _ _ _ G1 R2) as G2.
    now rewrite (loads_nothing_ids _ N2) in G2. }
  destruct Sr as [ND Tx]. destruct (Tx r Ir ltac:(now rewrite Ek)) as [Er (n & En)]. rewrite Ek, Ei in Er. rewrite Ek, Ei in En. cbn [style_key k_ast k_prefix] in *.
  pose proof (fresh_plain _ _ _ Fr) as Pl.
  assert (Es : page_styles pc = map (fun r => (r_id r, r_text r)) (server_state es sp sa2)).
  { eapply reads_as_unique; [exact Pg|]. now apply markup_reads. }
  assert (T0 : texts_of id pc = [to_style_str (Some id) s]).
  { rewrite (page_texts pc id Pd), Es, <- Ei, (one_text _ r ND Ir), Er. now rewrite Ei. }
  assert (Bo : boring_class (Some id)).
  { cbn. rewrite En. apply id_boring; [apply Pp|apply Pl]. }
  destruct (rendered_css_reads_back (Some id) s Bo Cl) as (items & I1 & I2).
  split; [exists (to_style_str (Some id) s), items; cbn; auto|]. split.
  - exists (to_style_str (Some id) s), items. split; [|auto].
    replace (texts_of id (w_dom (a_world ca2))) with (texts_of (r_id r) (w_dom (a_world ca2))) by now rewrite Ei.
    rewrite (hydrated_page_keeps_styles yc ec pc lc ca h (server_state es sp sa2) ca1 p mi lc2 ca2 r); auto.
    + now rewrite Er.
    + intros r' I'. rewrite page_styles_ids, Es, map_map. cbn. change (fun x => r_id x) with r_id. now apply in_map.
    + now exists ctx.
    + now rewrite Ek.
    + rewrite Ei, En. apply plain_prefix_plain_id; [apply Pp|apply Pl].
    + now rewrite Ei, T0, Er.
  - exact (hydrated_component_has_server_class _ _ _ _ _ _ _ _ _ _ _ _ _ _ _ _ _ _ _ _ _ _ _ _ _ _ R1 N1 H1 P1 C1 R2 N2 H2 K2 R3 H3 P3 R4 U4 H4 P4).
Qed.
Print Assumptions served_page_works.

(** The state of an orderly server (one that mounts no CSS again after it is gone, C58) hydrates a
    manager that has no styles yet: nothing panics. *)
Lemma clone_registers e w h w' h' mi k cid :
  Manager.step e w (OCloneManager h) = (w', RHandle h') -> registered w' mi k cid -> registered w mi k cid.
Proof.
  cbn [Manager.step]. unfold clone_manager. destruct (handle_of (w_mhandles w) h) as [mj|]; [|discriminate]. intros H. injection H as <- _.
  intros (m & Hm & I). cbn [w_mgrs with_mhandles with_mgrs] in Hm.
  destruct (Nat.eq_dec mi mj) as [->|N].
  - rewrite nth_upd_eq in Hm. destruct (nth_error (w_mgrs w) mj) as [m0|] eqn:E; [|discriminate]. injection Hm as <-. exists m0. split; auto.
  - rewrite nth_upd_ne in Hm by auto. exists m. auto.
Qed.
Theorem served_state_hydrates : forall ys es ps ls sa sp smi yc ec pc lc ca h mi,
  arun ys es (app_start ps) ls = Some sa -> orderly ys es (app_start ps) ls smi [] ->
  handle_of (w_mhandles (a_world sa)) (v_context sp) = Some smi ->
  arun yc ec (app_start pc) lc = Some ca -> handle_of (w_mhandles (a_world ca)) h = Some mi ->
  (forall k cid, ~ registered (a_world ca) mi k cid) ->
  exists ca1 p, provide ec h (Some (server_state es sp sa)) ca = Some (ca1, p)
    /\ w_dom (a_world ca1) = w_dom (a_world ca).
Proof.
  intros ys es ps ls sa sp smi yc ec pc lc ca h mi R O Hs Rc Hh Nr.
  apply good_reached in Rc. destruct (gd_reach _ _ _ _ _ _ Rc) as (l0 & Re & _).
  destruct (Manager.step ec (a_world ca) (OCloneManager h)) as [w1 r1] eqn:S1.
  assert (exists h1, r1 = RHandle h1) as [h1 ->].
  { cbn [Manager.step] in S1. unfold clone_manager in S1. rewrite Hh in S1. injection S1 as _ <-. eauto. }
  assert (C1 : clone_handle ec h (a_world ca) = Some (w1, h1)) by (unfold clone_handle; now rewrite S1).
  destruct (clone_handle_spec _ _ _ _ _ _ _ _ _ Rc C1) as (G1 & _ & _ & D1 & _ & K1 & _). destruct (K1 mi Hh) as [Hh1 _].
  pose proof (reaches_step _ _ _ _ (OCloneManager h) Re) as Re1. rewrite S1 in Re1. cbn [fst] in Re1.
  destruct (Manager.step ec w1 (OCloneManager h)) as [w2 r2] eqn:S2.
  assert (exists h2, r2 = RHandle h2) as [h2 ->].
  { cbn [Manager.step] in S2. unfold clone_manager in S2. rewrite Hh1 in S2. injection S2 as _ <-. eauto. }
  assert (C2 : clone_handle ec h w1 = Some (w2, h2)) by (unfold clone_handle; now rewrite S2).
  destruct (clone_handle_spec _ _ _ _ _ _ _ _ _ G1 C2) as (G2 & _ & _ & D2 & _ & K2 & _). destruct (K2 mi Hh1) as [_ Hh2].
  pose proof (reaches_step _ _ _ _ (OCloneManager h) Re1) as Re2. rewrite S2 in Re2. cbn [fst] in Re2.
  assert (Rd : snd (Manager.step es (a_world sa) (ORead (v_context sp))) = RData (server_state es sp sa)).
  { unfold server_state. cbn [Manager.step]. rewrite Hs. unfold Manager.read_data.
    destruct (core_manager _ _ _ _ _ _ (good_core _ _ _ _ _ _ (good_reached _ _ _ _ _ R)) Hs) as (m & Hm & _). rewrite Hm. reflexivity. }
  destruct (global_server_data_loads_partial ys es ps ls sa (v_context sp) smi _ ec pc _ w2 h2 mi R O Hs Rd Re2 Hh2) as (w3 & S3 & _).
  { intros k cid Rg. apply (Nr k cid). eapply clone_registers; [exact S1|]. eapply clone_registers; [exact S2|exact Rg]. }
  assert (P : exists ca1 p, provide ec h (Some (server_state es sp sa)) ca = Some (ca1, p)).
  { unfold provide. rewrite C1, C2. unfold load_state. rewrite S3. eauto. }
  destruct P as (ca1 & p & P). exists ca1, p. split; [exact P|].
  destruct (provide_spec _ _ _ _ _ _ _ _ Rc P) as (? & _ & _ & _ & _ & _ & _ & Dm & _). exact Dm.
Qed.
Print Assumptions served_state_hydrates.

(** ** A server and a client that meet the hypotheses *)

Definition drawn (t : string) (n : nat) : str := lit t ++ [(48 + N.of_nat (n mod 10))%N].
Lemma drawn_random t n : List.length (lit t) = 7 -> forallb is_ascii_alnum (lit t) = true -> rand_entropy (drawn t n).
Proof.
  intros L A. unfold drawn. split; [rewrite app_length; cbn; lia|]. rewrite forallb_app, A. cbn [forallb andb].
  pose proof (Nat.mod_upper_bound n 10 ltac:(lia)) as B. revert B. generalize (n mod 10). intros k B.
  do 10 (destruct k as [|k]; [reflexivity|]). lia.
Qed.
Lemma drawn_apart t n : List.length (lit t) = 7 -> forallb is_ascii_alnum (lit t) = true -> n <= 10 -> draws_apart (drawn t) n.
Proof.
  intros L A B. apply random_draws_apart; [intros i _; now apply drawn_random|].
  intros i j Hi Hj N E. apply N. unfold drawn in E. apply app_inv_head in E. apply (f_equal (hd 0%N)) in E. cbn [hd] in E. rewrite !Nat.mod_small in E by lia. lia.
Qed.

(** A server with random names; its page; a client with other random names. *)
Definition far_env : env := mk_env false false None false (drawn "aB3dE6g").
Definition near_env : env := mk_env true true (Some 0) false (drawn "Zz3dE6g").
Definition far_app : app :=
  match arun (mk_yew true true) far_env (app_start []) ssr_ops with Some a => a | None => app_start [] end.
Definition far_app1 : app :=
  match use_style far_env (Some 0) (demo_source "red") far_app with Some (a, _) => a | None => app_start [] end.
Definition far_rest : list aop := [AUseStyle (Some 0) (demo_source "blue"); AMount (Some 0) (demo_source "grey"); AUnmount 0].
Definition far_app2 : app :=
  match arun (mk_yew true true) far_env far_app1 far_rest with Some a => a | None => app_start [] end.
Definition far_data : list record := server_state far_env ssr_provider far_app2.
Definition far_page : dom :=
  [mk_container true true (EOther :: map (fun r => EStyle (r_id r) (r_text r)) far_data)].
Definition near_ops : list aop := [AOp (OBuild (lit "app") (Some 0) true false)].
Definition near_app : app :=
  match arun (mk_yew true true) near_env (app_start far_page) near_ops with Some a => a | None => app_start [] end.
Definition near_app1 : app * provider :=
  match provide near_env 0 (Some far_data) near_app with Some x => x | None => (app_start [], ssr_provider) end.
Definition near_rest : list aop :=
  [AUseStyle (Some (v_context (snd near_app1))) (demo_source "red"); AOp (ODropStyle 0);
   AUseStyle (Some (v_context (snd near_app1))) (demo_source "pink")].
Definition near_app2 : app :=
  match arun (mk_yew true true) near_env (fst near_app1) near_rest with Some a => a | None => app_start [] end.

Example far_side :
  arun (mk_yew true true) far_env (app_start []) ssr_ops = Some far_app
  /\ handle_of (w_mhandles (a_world far_app)) 0 = Some 0 /\ manager_prefix (a_world far_app) 0 (lit "app")
  /\ component_class far_env 0 (PropsManager.demo_sheet "red") far_app far_app1 (lit "app-aB3dE6g0")
  /\ arun (mk_yew true true) far_env far_app1 far_rest = Some far_app2
  /\ handle_of (w_mhandles (a_world far_app2)) 0 = Some 0 /\ keeps_data (a_world far_app2) 0
  /\ w_draws (a_world far_app2) = 3
  /\ map r_id far_data = [lit "app-aB3dE6g0"; lit "app-aB3dE6g1"; lit "app-global-aB3dE6g2"].
Proof.
  split; [vm_compute; reflexivity|]. split; [now vm_compute|]. split; [eexists; split; vm_compute; reflexivity|].
  split; [apply class_hook with (src := demo_source "red") (x := 0); now vm_compute|].
  split; [vm_compute; reflexivity|]. split; [now vm_compute|]. split; [do 2 eexists; split; vm_compute; reflexivity|]. split; vm_compute; reflexivity.
Qed.
Example near_side :
  arun (mk_yew true true) near_env (app_start far_page) near_ops = Some near_app
  /\ handle_of (w_mhandles (a_world near_app)) 0 = Some 0
  /\ provide near_env 0 (Some far_data) near_app = Some (fst near_app1, snd near_app1)
  /\ arun (mk_yew true true) near_env (fst near_app1) near_rest = Some near_app2
  /\ handle_of (w_mhandles (a_world near_app2)) 0 = Some 0 /\ manager_prefix (a_world near_app2) 0 (lit "app")
  /\ w_draws (a_world near_app2) = 1.
Proof.
  split; [vm_compute; reflexivity|]. split; [now vm_compute|]. split; [vm_compute; reflexivity|].
  split; [vm_compute; reflexivity|]. split; [now vm_compute|]. split; [eexists; split; vm_compute; reflexivity|]. vm_compute; reflexivity.
Qed.


(** The same programs meet the hypotheses of [served_state_hydrates]. *)
Definition far_ops : list aop := ssr_ops ++ AUseStyle (Some 0) (demo_source "red") :: far_rest.
Example far_hydrates :
  arun (mk_yew true true) far_env (app_start []) far_ops = Some far_app2
  /\ orderly (mk_yew true true) far_env (app_start []) far_ops 0 []
  /\ handle_of (w_mhandles (a_world far_app2)) (v_context ssr_provider) = Some 0
  /\ arun (mk_yew true true) near_env (app_start far_page) near_ops = Some near_app
  /\ handle_of (w_mhandles (a_world near_app)) 0 = Some 0
  /\ (forall k cid, ~ registered (a_world near_app) 0 k cid).
Proof.
  split; [vm_compute; reflexivity|]. split; [apply orderlyb_ok; now vm_compute|]. split; [now vm_compute|].
  split; [vm_compute; reflexivity|]. split; [now vm_compute|].
  assert (E : option_map m_reg (nth_error (w_mgrs (a_world near_app)) 0) = Some []) by (vm_compute; reflexivity).
  intros k cid (m & Hm & I). rewrite Hm in E. injection E as E. rewrite E in I. destruct I.
Qed.

Local Opaque far_app far_app1 far_app2 near_app near_app1 near_app2 provide use_style arun.
Lemma far_markup_safe : markup_safe (fun s => s) far_data.
Proof.
  assert (K : forallb (fun r => negb (existsb (char_eqb (ch """")) (r_id r)) && negb (existsb (char_eqb (ch "<")) (r_text r))) far_data = true)
    by (vm_compute; reflexivity).
  intros r I. apply (proj1 (forallb_forall _ _) K r) in I. apply andb_prop in I. destruct I as [I1 I2].
  apply negb_true_iff in I1, I2. split; [|split; [|reflexivity]].
  - intros X. assert (existsb (char_eqb (ch """")) (r_id r) = true); [|congruence]. apply existsb_exists. eexists. split; [exact X|reflexivity].
  - intros (a & b & E). assert (existsb (char_eqb (ch "<")) (r_text r) = true); [|congruence]. apply existsb_exists. exists (ch "<").
    split; [|reflexivity]. rewrite E. apply in_or_app. right. now left.
Qed.
Example served_page_ex :
  page_says (a_world near_app2) (lit "app-aB3dE6g0") (sheet_decls (Some (lit "app-aB3dE6g0")) (PropsManager.demo_sheet "red"))
  /\ forall src, user_source near_app2 src = true -> s_sheet src = PropsManager.demo_sheet "red" -> exists a x,
       use_style near_env (Some 0) src near_app2 = Some (a, x) /\ get_id (a_world a) x = Some (lit "app-aB3dE6g0").
Proof.
  destruct far_side as (A1 & A2 & A3 & A4 & A5 & A6 & A7 & A8 & A9).
  destruct near_side as (B1 & B2 & B3 & B4 & B5 & B6 & B7).
  assert (L1 : loads_nothing ssr_ops) by (intros h d [E|[]]; discriminate E).
  assert (L2 : loads_nothing far_rest) by (intros h d [E|[E|[E|[]]]]; discriminate E).
  assert (L3 : loads_nothing near_ops) by (intros h d [E|[]]; discriminate E).
  assert (L4 : loads_nothing near_rest) by (intros h d [E|[E|[E|[]]]]; discriminate E).
  assert (Pp : plain_prefix (lit "app")) by (split; [reflexivity|repeat constructor]).
  assert (Cl : closed_sheet (PropsManager.demo_sheet "red")) by solve_closed.
  assert (Fr : names_fresh far_env [] (w_draws (a_world far_app2))).
  { rewrite A8. split; [intros i; right; now apply drawn_random|]. split; [apply drawn_apart; auto; lia|intros id []]. }
  assert (Pg : page_of (static_markup (fun s => s) far_data) far_page).
  { split; [|intros n [<-|[]] E; discriminate E].
    replace (page_styles far_page) with (map (fun r => (r_id r, r_text r)) far_data).
    - apply markup_reads. apply far_markup_safe.
    - unfold far_page, page_styles. cbn [flat_map n_children]. rewrite app_nil_r. generalize far_data. induction l as [|r l IH]; cbn; [reflexivity|]. now f_equal. }
  assert (Ap : ids_apart near_env far_page (w_draws (a_world near_app2))).
  { rewrite B7. split; [apply drawn_apart; auto; lia|]. intros id I i Hi p E.
    assert (K : forallb (fun id => negb (existsb (char_eqb (ch "Z")) id)) (page_ids far_page) = true) by (vm_compute; reflexivity).
    apply (proj1 (forallb_forall _ _) K id) in I. apply negb_true_iff in I. subst id. unfold near_env, drawn in I. cbn [e_draw] in I.
    rewrite !existsb_app in I. replace (existsb (char_eqb (ch "Z")) (lit "Zz3dE6g")) with true in I by reflexivity.
    rewrite !orb_true_r in I. discriminate I. }
  destruct (served_page_works (mk_yew true true) far_env [] ssr_ops far_app 0 0 (lit "app") (PropsManager.demo_sheet "red") far_app1
    (lit "app-aB3dE6g0") far_rest far_app2 ssr_provider (fun s => s) (mk_yew true true) near_env far_page near_ops near_app 0 0
    (fst near_app1) (snd near_app1) near_rest near_app2 0 A1 L1 A2 A3 A4 A5 L2 A6 A7 Pp Cl Fr far_markup_safe Pg eq_refl eq_refl
    B1 L3 B2 B3 B4 L4 eq_refl Ap B5 B6) as (_ & X & Y & _).
  exact (conj X Y).
Qed.
