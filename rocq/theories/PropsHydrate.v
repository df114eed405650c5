(** * PropsHydrate: server-side rendering and hydration (C28-C32, C50). *)

From Coq Require Import String Ascii List NArith Bool Arith Lia.
From Verif Require Import Str StrFacts Ast Render CssParser Ids IdFacts Manager SpecManager
  ManagerFacts ManagerInv ManagerSteps ManagerCore ManagerProps Hydrate PropsManager StaticData
  SpecHydrate.
Import ListNotations.
Local Open Scope list_scope.
Local Opaque parse to_style_str.

Definition server_env : env := mk_env false false None false counter_entropy.

(** ** C30: static mode *)

(** One creation on a static-mode manager: one more record for a new key, none for a registered
    one; the document is not touched. *)
Theorem static_create_records_once : forall e page l w h mi m d k w' a,
  reaches e page l w -> handle_of (w_mhandles w) h = Some mi ->
  nth_error (w_mgrs w) mi = Some m -> m_data m = Some d ->
  step e w (OCreate h k) = (w', RHandle a) ->
  w_dom w' = w_dom w
  /\ exists m', nth_error (w_mgrs w') mi = Some m'
     /\ ((exists cid, registered w mi k cid) -> m_data m' = Some d)
     /\ ((forall cid, ~ registered w mi k cid) ->
         exists id text, get_id w' a = Some id /\ get_style_str w' a = Some text
           /\ m_data m' = Some (d ++ [mk_record k id text])).
Proof.
  intros e page l w h mi m d k w' a R Hh Hm Hd S. cbn [step] in S. rewrite Hh in S.
  unfold get_or_register in S. rewrite Hm in S.
  destruct (reg_get (m_reg m) k) as [cid|] eqn:G.
  - injection S as <- <-. split; [reflexivity|]. exists m. split; [exact Hm|]. split; [auto|].
    intros N. exfalso. apply (N cid). exists m. split; [exact Hm|]. now apply reg_get_in.
  - cbv zeta in S. destruct (e_debug e && _); [discriminate|]. rewrite Hd in S.
    injection S as <- <-. split; [reflexivity|]. eexists. unfold admit_content. cbn.
    rewrite upd_upd, nth_upd_eq, Hm. split; [reflexivity|]. split.
    + intros (cid & m' & Hm' & I). exfalso. rewrite Hm in Hm'. injection Hm' as <-.
      apply reg_get_none in G. apply G. apply in_map_iff. now exists (k, cid).
    + intros _. unfold get_id, get_style_str, handle_content.
      cbn [w_handles w_contents]. rewrite handle_new, nth_app_new. cbn.
      do 2 eexists. auto.
Qed.
Print Assumptions static_create_records_once.

(** At every point the data read from a static-mode manager is the list of the styles it made,
    in order of creation. *)
Theorem static_data_lists_created_styles : forall e page l w h mi m,
  reaches e page l w -> handle_of (w_mhandles w) h = Some mi ->
  nth_error (w_mgrs w) mi = Some m -> m_data m <> None ->
  step e w (ORead h) = (w, RData
    (map (fun c => mk_record (c_key c) (c_id c) (c_text c))
       (filter (fun c => negb (c_hydrated c) && Nat.eqb (c_mgr c) mi) (w_contents w)))).
Proof.
  intros e page l w h mi m R Hh Hm Hd. apply reaches_core in R. cbn [step]. rewrite Hh.
  unfold read_data. rewrite Hm. destruct (m_data m) as [d|] eqn:E; [|contradiction].
  now rewrite (o_data _ _ _ _ R _ _ _ Hm E).
Qed.
Print Assumptions static_data_lists_created_styles.

(** A server: two styles and a global one, one of them requested twice. *)
Definition server_history : list op :=
  [OBuild (lit "stylist") None true true; OCreate 0 (demo_key "red"); ODropStyle 0;
   OCreate 0 (demo_key "blue"); OCreate 0 (demo_key "red");
   OCreate 0 (mk_key true (lit "stylist") (demo_sheet "red"))].
Definition server_world : world := fst (run server_env (start []) server_history).
Lemma server_reaches : reaches server_env [] server_history server_world.
Proof. exists (snd (run server_env (start []) server_history)). apply surjective_pairing. Qed.

Definition server_data : list record :=
  match snd (step server_env server_world (ORead 0)) with RData d => d | _ => [] end.

Example static_data_ex :
  map r_id server_data
  = [lit "stylist-style-0"; lit "stylist-style-1"; lit "stylist-global-style-2"]
  /\ exists m, nth_error (w_mgrs server_world) 0 = Some m /\ m_data m <> None.
Proof. split; [now vm_compute|]. eexists. split; [vm_compute; reflexivity|discriminate]. Qed.

(** ** C28, C29: hydration *)

Theorem hydration_reproduces_names : forall es ps ls ws hs ms m d ec pc lc wc hc mi,
  (* a server that unregistered nothing, with a static-mode manager, and the style data read
     from it *)
  reaches es ps ls ws -> forallb (fun o => negb (is_unregister o)) ls = true ->
  handle_of (w_mhandles ws) hs = Some ms -> nth_error (w_mgrs ws) ms = Some m ->
  m_data m <> None -> snd (step es ws (ORead hs)) = RData d ->
  (* a client with a manager that has registered nothing yet *)
  reaches ec pc lc wc -> handle_of (w_mhandles wc) hc = Some mi ->
  (forall k cid, ~ registered wc mi k cid) ->
  exists w1, step ec wc (OLoad hc d) = (w1, RDone) /\ w_dom w1 = w_dom wc
    /\ forall l2 w2 h2 i c,
       (* later on the client, with nothing unregistered *)
       w2 = fst (run ec w1 l2) -> forallb (fun o => negb (is_unregister o)) l2 = true ->
       handle_of (w_mhandles w2) h2 = Some mi ->
       (* any style of the server's manager *)
       nth_error (w_contents ws) i = Some c -> c_mgr c = ms -> c_hydrated c = false ->
       exists w3 a, step ec w2 (OCreate h2 (c_key c)) = (w3, RHandle a)
         /\ get_id w3 a = Some (c_id c) /\ w_dom w3 = w_dom w2
         /\ get_style_str w3 a = Some (to_style_str (Some (c_id c)) (k_ast (c_key c))).
Proof.
  intros es ps ls ws hs ms m d ec pc lc wc hc mi Rs Us Hhs Hm Hs Hr Rc Hh Nr.
  assert (Hd : m_data m = Some d).
  { cbn [step] in Hr. rewrite Hhs in Hr. cbn [snd] in Hr. unfold read_data in Hr. rewrite Hm in Hr.
    destruct (m_data m); [congruence|contradiction]. }
  apply reaches_core in Rs as Cs. apply (reaches_uniq _ _ _ _ Rs) in Us as Uq.
  pose proof (o_data _ _ _ _ Cs) as D.
  pose proof (server_keys ws ms m d D Uq Hm Hd) as ND.
  apply reaches_core in Rc as Cc. destruct (core_manager _ _ _ _ _ _ Cc Hh) as (mc & Hmc & Hsc).
  destruct (load_data_fresh d wc mi mc Hmc ND) as (w1 & m1 & L & A1 & A2 & A3 & A4 & A5 & _ & A7 & A8).
  { intros r _. destruct (reg_get (m_reg mc) (r_key r)) as [cid|] eqn:G; [exfalso|reflexivity].
    apply (Nr (r_key r) cid). exists mc. split; [exact Hmc|]. now apply reg_get_in. }
  exists w1. assert (S1 : step ec wc (OLoad hc d) = (w1, RDone)) by (cbn [step]; now rewrite Hh).
  split; [exact S1|]. split; [exact A1|].
  intros l2 w2 h2 i c -> Ok Hh2 Hi Hcm Hch.
  assert (Ir : In (record_of c) d).
  { rewrite (D _ _ _ Hm Hd). apply in_map. apply filter_In. split; [eapply nth_error_In; eauto|].
    unfold made_by. now rewrite Hch, Hcm, Nat.eqb_refl. }
  destruct (A8 _ Ir) as (cid & c1 & B1 & B2 & B3 & B4 & _ & B6). cbn [record_of r_id r_key] in *.
  pose proof (reaches_step _ _ _ _ (OLoad hc d) Rc) as R1. rewrite S1 in R1. cbn [fst] in R1.
  apply reaches_core in R1 as C1.
  assert (R2 : reaches ec pc ((lc ++ [OLoad hc d]) ++ l2) (fst (run ec w1 l2))).
  { destruct R1 as [rs R1]. exists (snd (run ec (start pc) ((lc ++ [OLoad hc d]) ++ l2))).
    rewrite (surjective_pairing (run ec (start pc) ((lc ++ [OLoad hc d]) ++ l2))). cbn [snd].
    f_equal. rewrite run_app, R1. reflexivity. }
  assert (Rg : registered (fst (run ec w1 l2)) mi (c_key c) cid).
  { apply (run_registered ec (loaded_ids (lc ++ [OLoad hc d]))); auto.
    - destruct (core_manager _ _ _ _ _ _ (reaches_core _ _ _ _ R2) Hh2) as (m2 & Hm2 & Hs2).
      unfold mstrong_of. now rewrite Hm2.
    - exists m1. auto. }
  destruct (run_contents ec l2 w1 cid c1 B2) as (c2 & Hc2 & Bc). apply base_fields in Bc.
  destruct (create_registered_shares ec pc _ _ h2 mi (c_key c) cid c2 R2 Hh2 Rg Hc2)
    as (w3 & S3 & G1 & G2 & _ & _ & G5 & _).
  exists w3. eexists. split; [exact S3|]. rewrite G1, G2. intuition congruence.
Qed.
Print Assumptions hydration_reproduces_names.

(** Scoped styles also have the server's text. *)
Theorem hydrated_text_scoped_partial : forall es ps ls ws i c,
  reaches es ps ls ws -> nth_error (w_contents ws) i = Some c -> c_hydrated c = false ->
  k_global (c_key c) = false ->
  to_style_str (Some (c_id c)) (k_ast (c_key c)) = c_text c.
Proof.
  intros es ps ls ws i c R Hc Hh Hg. apply reaches_core in R.
  destruct (o_content _ _ _ _ R _ _ Hc) as [_ ->]. unfold text_of, style_text. now rewrite Hh, Hg.
Qed.
Print Assumptions hydrated_text_scoped_partial.

(** A client that loads the server's data before it renders. *)
Definition client_page : dom :=
  [mk_container true true (EOther :: map (fun r => EStyle (r_id r) (r_text r)) server_data)].
Definition client_world : world :=
  fst (run demo_env (start client_page)
         [OBuild (lit "stylist") None true false; OLoad 0 server_data]).

Example hydration_ex :
  forallb (fun o => negb (is_unregister o)) server_history = true
  /\ (forall k cid, ~ registered
        (fst (run demo_env (start client_page) [OBuild (lit "stylist") None true false])) 0 k cid)
  /\ (let r := step demo_env client_world (OCreate 0 (demo_key "blue")) in
      get_id (fst r) 0 = Some (lit "stylist-style-1") /\ w_dom (fst r) = client_page).
Proof.
  split; [reflexivity|]. split; [|now vm_compute].
  intros k cid (m & Hm & I). vm_compute in Hm. injection Hm as <-. exact I.
Qed.

(** Global styles do not: the client renders them under their id, as if scoped. *)
Theorem hydrated_text_refuted :
  exists c w3 a, nth_error (w_contents server_world) 2 = Some c
    /\ step demo_env client_world (OCreate 0 (c_key c)) = (w3, RHandle a)
    /\ get_id w3 a = Some (c_id c)
    /\ c_text c = to_style_str None (demo_sheet "red")
    /\ get_style_str w3 a <> Some (c_text c).
Proof.
  do 3 eexists. split; [vm_compute; reflexivity|]. split; [vm_compute; reflexivity|].
  split; [now vm_compute|]. split; [now vm_compute|]. vm_compute. discriminate.
Qed.
Print Assumptions hydrated_text_refuted.

(** ** C32: loading *)

(** A style that was unregistered and made again on the server is recorded twice, with two
    ids: the client panics. *)
Theorem style_data_always_loads_refuted :
  exists ws d, reaches server_env []
      [OBuild (lit "stylist") None true true; OCreate 0 (demo_key "red"); OUnregister 0;
       OCreate 0 (demo_key "red")] ws
    /\ snd (step server_env ws (ORead 0)) = RData d
    /\ forall wc, reaches demo_env demo_page [OBuild (lit "stylist") None true false] wc ->
       snd (step demo_env wc (OLoad 0 d)) = RPanic.
Proof.
  do 2 eexists. split; [eexists; vm_compute; reflexivity|]. split; [vm_compute; reflexivity|].
  intros wc [rs R]. vm_compute in R. injection R as <- _. now vm_compute.
Qed.
Print Assumptions style_data_always_loads_refuted.

(** It loads whenever the keys of the records differ, ... *)
Theorem style_data_loads_partial : forall ec pc lc wc hc mi d,
  reaches ec pc lc wc -> handle_of (w_mhandles wc) hc = Some mi ->
  (forall k cid, ~ registered wc mi k cid) -> NoDup (map r_key d) ->
  exists w1, step ec wc (OLoad hc d) = (w1, RDone)
    /\ (forall k, (exists cid, registered w1 mi k cid) <-> In k (map r_key d))
    /\ (* ... and loading it again changes nothing *)
    step ec w1 (OLoad hc d) = (w1, RDone).
Proof.
  intros ec pc lc wc hc mi d R Hh Nr ND. apply reaches_core in R as C.
  destruct (core_manager _ _ _ _ _ _ C Hh) as (mc & Hmc & Hsc).
  assert (Reg0 : m_reg mc = []).
  { destruct (m_reg mc) as [|[k cid] r] eqn:E; [reflexivity|exfalso].
    apply (Nr k cid). exists mc. split; [exact Hmc|]. rewrite E. now left. }
  destruct (load_data_fresh d wc mi mc Hmc ND) as (w1 & m1 & L & A1 & A2 & A3 & A4 & A5 & _ & A7 & A8).
  { intros r _. now rewrite Reg0. }
  assert (S1 : step ec wc (OLoad hc d) = (w1, RDone)) by (cbn [step]; now rewrite Hh).
  exists w1. split; [exact S1|].
  pose proof (reaches_step _ _ _ _ (OLoad hc d) R) as R1. rewrite S1 in R1. cbn [fst] in R1.
  apply reaches_core in R1 as C1. destruct (o_reg _ _ _ _ C1 _ _ A5) as (ND1 & _ & RO1).
  split.
  - intros k. split.
    + intros (cid & m' & Hm' & I). rewrite A5 in Hm'. injection Hm' as <-.
      assert (G : forall l w m w' m' r, nth_error (w_mgrs w) mi = Some m ->
                load_data mi l w = (w', r) -> nth_error (w_mgrs w') mi = Some m' ->
                forall k, In k (map fst (m_reg m')) -> In k (map fst (m_reg m)) \/ In k (map r_key l)).
      { clear. induction l as [|r l IH]; intros w m w' m' res Hm L Hm' k I.
        - injection L as <- _. left. congruence.
        - cbn [load_data] in L. destruct (load_one mi r w) as [w1|] eqn:E.
          + unfold load_one in E. rewrite Hm in E.
            destruct (reg_get (m_reg m) (r_key r)) as [cid|].
            * assert (w1 = w) as -> by (destruct (nth_error _ cid);
                [destruct (str_eqb _ _); [|discriminate]|]; congruence).
              destruct (IH _ _ _ _ _ Hm L Hm' k I); [now left|right; now right].
            * injection E as <-.
              match type of L with load_data _ _ ?wx = _ =>
                assert (Hm1 : nth_error (w_mgrs wx) mi
                  = Some (set_reg (m_reg m ++ [(r_key r, List.length (w_contents w))]) m))
                  by (cbn; now rewrite nth_upd_eq, Hm) end.
              destruct (IH _ _ _ _ _ Hm1 L Hm' k I) as [J|J].
              -- cbn in J. rewrite map_app, in_app_iff in J. cbn in J. cbn. tauto.
              -- right. now right.
          + injection L as <- _. left. congruence. }
      destruct (G d wc mc w1 m1 RDone Hmc L A5 k) as [J|J]; [|now rewrite Reg0 in J|exact J].
      apply in_map_iff. now exists (k, cid).
    + intros Ik. apply in_map_iff in Ik as (r & <- & Ir).
      destruct (A8 _ Ir) as (cid & c1 & B1 & _). exists cid. now exists m1.
  - cbn [step]. rewrite A3, Hh.
    assert (G : forall l, (forall r, In r l -> In r d) -> load_data mi l w1 = (w1, RDone)).
    { induction l as [|r l IH]; intros Hl; [reflexivity|]. cbn [load_data].
      assert (Ir : In r d) by (apply Hl; now left).
      destruct (A8 _ Ir) as (cid & c1 & B1 & B2 & B3 & _).
      unfold load_one. rewrite A5, (reg_get_complete _ _ _ ND1 B1), B2, B3, str_eqb_refl.
      apply IH. intros x Ix. apply Hl. now right. }
    now apply G.
Qed.
Print Assumptions style_data_loads_partial.

(** The exact condition, for a manager at any time (also when it has styles already): loading
    either succeeds or panics, and it succeeds if and only if the data contradict neither what
    the manager knows nor themselves.  Then the manager knows what it knew and what was loaded,
    and loading again changes nothing. *)
Theorem style_data_loads_iff : forall e page l w h mi d,
  reaches e page l w -> handle_of (w_mhandles w) h = Some mi ->
  exists w1 res, step e w (OLoad h d) = (w1, res)
    /\ (res = RDone \/ res = RPanic)
    /\ (res = RDone <-> data_fits w mi d)
    /\ (res = RDone ->
        (forall k id, known_as w1 mi k id
           <-> known_as w mi k id \/ exists r, In r d /\ r_key r = k /\ r_id r = id)
        /\ step e w1 (OLoad h d) = (w1, RDone)).
Proof.
  intros e page l w h mi d R Hh. apply reaches_core in R as C.
  destruct (core_manager _ _ _ _ _ _ C Hh) as (m & Hm & _).
  destruct (o_reg _ _ _ _ C _ _ Hm) as (ND & _ & RO).
  assert (Wf : wf_reg m w).
  { intros k cid G. apply reg_get_in in G. destruct (RO _ _ G) as (c & Hc & _).
    apply nth_error_Some. now rewrite Hc. }
  destruct (load_data_exact mi d w m Hm Wf) as (w1 & m1 & res & L & Hm1 & Wf1 & M & X).
  assert (S : step e w (OLoad h d) = (w1, res)) by (cbn [step]; now rewrite Hh).
  pose proof (reaches_step _ _ _ _ (OLoad h d) R) as R1. rewrite S in R1. cbn [fst] in R1.
  apply reaches_core in R1 as C1. destruct (o_reg _ _ _ _ C1 _ _ Hm1) as (ND1 & _ & _).
  assert (K : forall w m, nth_error (w_mgrs w) mi = Some m -> NoDup (map fst (m_reg m)) ->
    forall k id, known_as w mi k id <-> idof m w k = Some id).
  { clear. intros w m Hm ND k id. unfold idof. split.
    - intros (cid & c & (m' & Hm' & I) & Hc & <-). rewrite Hm in Hm'. injection Hm' as <-.
      now rewrite (reg_get_complete _ _ _ ND I), Hc.
    - destruct (reg_get (m_reg m) k) as [cid|] eqn:G; [|discriminate].
      destruct (nth_error (w_contents w) cid) as [c|] eqn:Hc; [|discriminate]. intros [= <-].
      exists cid, c. split; [exists m; split; [exact Hm|now apply reg_get_in]|now split]. }
  pose proof (K _ _ Hm ND) as K0. pose proof (K _ _ Hm1 ND1) as K1. clear K.
  exists w1, res. split; [exact S|].
  destruct X as [(-> & A & B & D)|(-> & X)].
  - split; [now left|]. split; [split; [intros _|reflexivity]|intros _].
    + split.
      * intros r id I J. apply K0, B in J. rewrite (A _ I) in J. congruence.
      * intros r1 r2 I1 I2 E. pose proof (A _ I1) as A1. rewrite E, (A _ I2) in A1. congruence.
    + split.
      * intros k id. rewrite K1, K0. split; [apply D|]. intros [J|(r & I & <- & <-)]; auto.
      * cbn [step]. rewrite M, Hh.
        destruct (load_data_exact mi d w1 m1 Hm1 Wf1) as (w2 & m2 & res & L2 & _ & _ & _ & _).
        assert (G : forall x, (forall r, In r x -> In r d) -> load_data mi x w1 = (w1, RDone)).
        { induction x as [|r x IH]; intros Hx; [reflexivity|]. cbn [load_data].
          rewrite (load_one_known _ _ _ _ _ Hm1 (A r (Hx r (or_introl eq_refl)))), str_eqb_refl.
          apply IH. intros y Hy. apply Hx. now right. }
        now apply G.
  - split; [now right|]. split; [split; [discriminate|]|discriminate]. intros [F1 F2]. exfalso.
    destruct X as [(r & id & I & J & N)|(r1 & r2 & I1 & I2 & E & N)].
    + apply N. apply (F1 r id I). now apply K0.
    + apply N. now apply F2.
Qed.
Print Assumptions style_data_loads_iff.

(** A manager that has made a style itself: loading the same style under another id does not
    fit, loading another style does. *)
Example style_data_loads_iff_ex :
  let w := fst (run demo_env (start client_page)
             [OBuild (lit "stylist") None true false; OCreate 0 (demo_key "red")]) in
  known_as w 0 (demo_key "red") (lit "stylist-style-0")
  /\ ~ data_fits w 0 [mk_record (demo_key "red") (lit "stylist-style-7") []]
  /\ data_fits w 0 [mk_record (demo_key "blue") (lit "stylist-style-7") []].
Proof.
  assert (K : known_as (fst (run demo_env (start client_page)
             [OBuild (lit "stylist") None true false; OCreate 0 (demo_key "red")])) 0
               (demo_key "red") (lit "stylist-style-0")).
  { exists 0. eexists. split; [eexists; split; [vm_compute; reflexivity|now left]|].
    split; [vm_compute; reflexivity|vm_compute; reflexivity]. }
  split; [exact K|]. split.
  - intros [F _]. specialize (F _ _ (or_introl eq_refl) K). discriminate F.
  - split.
    + intros r id [<-|[]] (cid & c & (m & Hm & I) & _). vm_compute in Hm. injection Hm as <-.
      destruct I as [I|[]]. discriminate I.
    + intros r1 r2 [<-|[]] [<-|[]] _. reflexivity.
Qed.

Example style_data_loads_ex :
  NoDup (map r_key server_data)
  /\ snd (step demo_env (fst (run demo_env (start client_page) [OBuild (lit "stylist") None true false]))
            (OLoad 0 server_data)) = RDone.
Proof.
  split; [|now vm_compute].
  assert (E : map r_key server_data
    = [demo_key "red"; demo_key "blue"; mk_key true (lit "stylist") (demo_sheet "red")]).
  { vm_compute. reflexivity. }
  rewrite E. repeat constructor; cbn [In]; intros H; decompose [or] H; try contradiction; discriminate.
Qed.

(** ** C31: snapshots *)

Definition cell_refs (s : store) (a : nat) : nat :=
  (if Nat.eqb (s_cur s) a then 1 else 0) + cnt (live (s_snaps s)) a.
Definition count_at (h : list cell) (a : nat) : nat :=
  match nth_error h a with Some c => v_strong c | None => 0 end.

Record agrees (s : store) (p : plain) : Prop := mk_agrees
  { g_count : forall a, count_at (s_heap s) a = cell_refs s a;
    g_cur : option_map v_value (nth_error (s_heap s) (s_cur s)) = Some (p_cur p);
    g_len : List.length (s_snaps s) = List.length (p_snaps p);
    g_snap : forall i, view s i = get_plain (p_snaps p) i }.

Lemma view_handle s i a : handle_of (s_snaps s) i = Some a ->
  view s i = option_map v_value (nth_error (s_heap s) a).
Proof. unfold view. now intros ->. Qed.

Lemma count_upd h a f b :
  count_at (upd h a f) b
  = if Nat.eqb a b then match nth_error h b with Some c => v_strong (f c) | None => 0 end
    else count_at h b.
Proof.
  unfold count_at. rewrite nth_upd. destruct (Nat.eqb_spec a b) as [->|]; [|reflexivity].
  now destruct (nth_error h b).
Qed.

Lemma snap_some s p i :
  agrees s p -> handle_of (s_snaps s) i = None -> get_plain (p_snaps p) i = None.
Proof. intros A H. rewrite <- (g_snap _ _ A). unfold view. now rewrite H. Qed.

Lemma snap_value s p i a :
  agrees s p -> handle_of (s_snaps s) i = Some a ->
  exists c, nth_error (s_heap s) a = Some c /\ get_plain (p_snaps p) i = Some (v_value c).
Proof.
  intros A H. pose proof (handle_live _ _ _ H) as L.
  pose proof (g_count _ _ A a) as C. unfold cell_refs, count_at in C.
  destruct (nth_error (s_heap s) a) as [c|] eqn:E; [|destruct (Nat.eqb _ a); lia].
  exists c. split; [reflexivity|]. rewrite <- (g_snap _ _ A), (view_handle _ _ _ H), E. reflexivity.
Qed.

Lemma agrees_start : agrees new_store (mk_plain [] []).
Proof.
  split; try reflexivity.
  - intros [|[|a]]; reflexivity.
  - intros [|i]; reflexivity.
Qed.

Lemma value_upd_count h a g b :
  option_map v_value (nth_error (upd h a (fun c => set_count (g c) c)) b)
  = option_map v_value (nth_error h b).
Proof.
  rewrite nth_upd. destruct (Nat.eqb_spec a b) as [->|]; [|reflexivity].
  now destruct (nth_error h b).
Qed.

Lemma handle_app l (x : nat) i :
  handle_of (l ++ [Some x]) i = if Nat.eqb i (List.length l) then Some x else handle_of l i.
Proof.
  unfold handle_of. destruct (Nat.eqb_spec i (List.length l)) as [->|N]; [now rewrite nth_app_new|].
  destruct (lt_dec i (List.length l)).
  - now rewrite nth_error_app1.
  - rewrite (proj2 (nth_error_None l i)) by lia.
    rewrite (proj2 (nth_error_None (l ++ [Some x]) i)); [reflexivity|]. rewrite app_length. cbn. lia.
Qed.

Lemma plain_app l x i :
  get_plain (l ++ [Some x]) i = if Nat.eqb i (List.length l) then Some x else get_plain l i.
Proof.
  unfold get_plain. destruct (Nat.eqb_spec i (List.length l)) as [->|N]; [now rewrite nth_app_new|].
  destruct (lt_dec i (List.length l)).
  - now rewrite nth_error_app1.
  - rewrite (proj2 (nth_error_None l i)) by lia.
    rewrite (proj2 (nth_error_None (l ++ [Some x]) i)); [reflexivity|]. rewrite app_length. cbn. lia.
Qed.

Lemma agrees_step s p o : agrees s p -> agrees (sstep s o) (plain_step p o).
Proof.
  intros A. pose proof A as [G1 G2 G3 G4]. destruct o as [r| |i|i]; cbn [sstep plain_step].
  - unfold record_style. destruct (nth_error (s_heap s) (s_cur s)) as [c|] eqn:E; [|discriminate].
    cbn in G2. injection G2 as G2.
    destruct (Nat.eqb_spec (v_strong c) 1) as [One|Many].
    + (* no snapshot shares the cell *)
      assert (Alone : forall i, handle_of (s_snaps s) i <> Some (s_cur s)).
      { intros i H. apply handle_live in H. pose proof (G1 (s_cur s)) as Q. unfold count_at, cell_refs in Q.
        rewrite E, Nat.eqb_refl in Q. lia. }
      split.
      * intros a. unfold cell_refs. cbn [s_heap s_cur s_snaps]. rewrite count_upd.
        destruct (Nat.eqb_spec (s_cur s) a) as [Q|Q].
        -- pose proof (G1 a) as R. unfold count_at, cell_refs in R.
           rewrite <- Q in *. rewrite E in *. rewrite Nat.eqb_refl in R. cbn in *. exact R.
        -- pose proof (G1 a) as R. unfold cell_refs in R. apply Nat.eqb_neq in Q. now rewrite Q in R.
      * cbn. rewrite nth_upd_eq, E. cbn. now rewrite G2.
      * exact G3.
      * intros i. rewrite <- G4. unfold view. cbn [s_heap s_cur s_snaps].
        destruct (handle_of (s_snaps s) i) as [a|] eqn:H; [|reflexivity].
        rewrite nth_upd_ne; [reflexivity|]. intros Q. apply (Alone i). congruence.
    + assert (Ln : nth_error (s_heap s) (List.length (s_heap s)) = None)
        by (apply nth_error_None; lia).
      assert (Lc : s_cur s < List.length (s_heap s)) by now apply nth_lt in E.
      assert (No : forall i, handle_of (s_snaps s) i <> Some (List.length (s_heap s))).
      { intros i H. apply handle_live in H. pose proof (G1 (List.length (s_heap s))) as Q.
        unfold count_at, cell_refs in Q. rewrite Ln in Q. lia. }
      split.
      * intros a. unfold cell_refs. cbn [s_heap s_cur s_snaps].
        pose proof (G1 a) as R. unfold cell_refs in R.
        destruct (Nat.eqb_spec (List.length (s_heap s)) a) as [Q|Q].
        -- rewrite <- Q in *. unfold count_at in *.
           rewrite nth_error_app2, upd_length, Nat.sub_diag by (rewrite upd_length; lia). cbn.
           rewrite Ln in R. lia.
        -- assert (Ca : count_at (upd (s_heap s) (s_cur s) (set_count (Nat.pred (v_strong c))) ++ [mk_cell (v_value c ++ [r]) 1]) a
              = count_at (upd (s_heap s) (s_cur s) (set_count (Nat.pred (v_strong c)))) a).
           { unfold count_at. destruct (lt_dec a (List.length (s_heap s))).
             - rewrite nth_error_app1; [reflexivity|]. now rewrite upd_length.
             - rewrite (proj2 (nth_error_None _ a)) by (rewrite app_length, upd_length; cbn; lia).
               rewrite (proj2 (nth_error_None _ a)) by (rewrite upd_length; lia). reflexivity. }
           rewrite Ca, count_upd. destruct (Nat.eqb_spec (s_cur s) a) as [Q2|Q2].
           ++ rewrite <- Q2 in *. rewrite E. cbn. unfold count_at in R. rewrite E in R. lia.
           ++ exact R.
      * cbn. rewrite nth_error_app2, upd_length, Nat.sub_diag by (rewrite upd_length; lia).
        cbn. now rewrite G2.
      * exact G3.
      * intros i. rewrite <- G4. unfold view. cbn [s_heap s_cur s_snaps].
        destruct (handle_of (s_snaps s) i) as [a|] eqn:H; [|reflexivity].
        assert (La : a < List.length (s_heap s)).
        { destruct (snap_value _ _ _ _ A H) as (ca & Ea & _). now apply nth_lt in Ea. }
        rewrite nth_error_app1 by now rewrite upd_length.
        apply (value_upd_count _ _ (fun _ => Nat.pred (v_strong c))).
  - unfold snapshot. destruct (nth_error (s_heap s) (s_cur s)) as [c|] eqn:E; [|discriminate].
    cbn in G2. injection G2 as G2. split.
    + intros a. unfold cell_refs. cbn [s_heap s_cur s_snaps]. rewrite count_upd, cnt_live_app.
      pose proof (G1 a) as R. unfold cell_refs in R.
      destruct (Nat.eqb_spec (s_cur s) a) as [Q|Q]; [|lia].
      rewrite <- Q in *. unfold count_at in R. rewrite E in *. cbn. lia.
    + cbn [s_heap s_cur p_cur]. rewrite (value_upd_count _ _ (fun c => S (v_strong c))), E. cbn. congruence.
    + cbn. rewrite !app_length, G3. reflexivity.
    + intros i. unfold view. cbn [s_heap s_cur s_snaps p_snaps]. rewrite handle_app, plain_app, G3.
      destruct (Nat.eqb i (List.length (p_snaps p))).
      * rewrite (value_upd_count _ _ (fun c => S (v_strong c))), E. cbn. congruence.
      * rewrite <- G4. unfold view. destruct (handle_of (s_snaps s) i); [|reflexivity].
        apply (value_upd_count _ _ (fun c => S (v_strong c))).
  - unfold clone_snapshot. destruct (handle_of (s_snaps s) i) as [b|] eqn:H.
    2:{ now rewrite (snap_some _ _ _ A H). }
    destruct (snap_value _ _ _ _ A H) as (c & E & ->). split.
    + intros a. unfold cell_refs. cbn [s_heap s_cur s_snaps]. rewrite count_upd, cnt_live_app.
      pose proof (G1 a) as R. unfold cell_refs in R.
      destruct (Nat.eqb_spec b a) as [Q|Q]; [|lia].
      rewrite <- Q in *. unfold count_at in R. rewrite E in *. cbn. lia.
    + cbn [s_heap s_cur p_cur]. rewrite (value_upd_count _ _ (fun c => S (v_strong c))). exact G2.
    + cbn. rewrite !app_length, G3. reflexivity.
    + intros j. unfold view. cbn [s_heap s_cur s_snaps p_snaps]. rewrite handle_app, plain_app, G3.
      destruct (Nat.eqb j (List.length (p_snaps p))).
      * rewrite (value_upd_count _ _ (fun c => S (v_strong c))), E. reflexivity.
      * rewrite <- G4. unfold view. destruct (handle_of (s_snaps s) j); [|reflexivity].
        apply (value_upd_count _ _ (fun c => S (v_strong c))).
  - unfold drop_snapshot. destruct (handle_of (s_snaps s) i) as [b|] eqn:H.
    2:{ now rewrite (snap_some _ _ _ A H). }
    destruct (snap_value _ _ _ _ A H) as (c & E & ->). split.
    + intros a. unfold cell_refs. cbn [s_heap s_cur s_snaps]. rewrite count_upd.
      pose proof (cnt_live_drop _ _ _ a H) as D. pose proof (G1 a) as R. unfold cell_refs in R.
      destruct (Nat.eqb_spec b a) as [Q|Q]; [|lia].
      rewrite <- Q in *. unfold count_at in R. rewrite E in *. cbn. lia.
    + cbn [s_heap s_cur p_cur]. rewrite (value_upd_count _ _ (fun c => Nat.pred (v_strong c))). exact G2.
    + cbn. now rewrite !upd_length.
    + intros j. unfold view, get_plain, handle_of. cbn [s_heap s_cur s_snaps p_snaps].
      rewrite !nth_upd. destruct (Nat.eqb_spec i j) as [Q|Q].
      * now destruct (nth_error (s_snaps s) j), (nth_error (p_snaps p) j).
      * specialize (G4 j). unfold view, get_plain, handle_of in G4.
        destruct (nth_error (s_snaps s) j) as [[a|]|]; try exact G4.
        rewrite (value_upd_count _ _ (fun c => Nat.pred (v_strong c))). exact G4.
Qed.

(** The copy-on-write vector behaves as a plain value: whatever is recorded, read, cloned and
    dropped, every [StyleData] held shows the records as they were when it was read. *)
Theorem snapshots_are_values : forall l i,
  view (srun new_store l) i = get_plain (p_snaps (plain_run l)) i.
Proof.
  intros l.
  assert (G : forall s p, agrees s p -> agrees (srun s l) (fold_left plain_step l p)).
  { induction l as [|o l IH]; intros s p A; [exact A|]. cbn. apply IH. now apply agrees_step. }
  intros i. apply (g_snap _ _ (G _ _ agrees_start)).
Qed.
Print Assumptions snapshots_are_values.

(** In particular later records do not change it. *)
Theorem snapshot_is_stable : forall l1 l2,
  forallb (fun o => match o with SDrop _ => false | _ => true end) l2 = true ->
  view (srun new_store (l1 ++ SRead :: l2)) (List.length (p_snaps (plain_run l1)))
  = Some (flat_map (fun o => match o with SRecord r => [r] | _ => [] end) l1).
Proof.
  intros l1 l2 Hl2. rewrite snapshots_are_values. unfold plain_run. rewrite fold_left_app. cbn [fold_left].
  set (p := fold_left plain_step l1 (mk_plain [] [])).
  assert (C : p_cur p = flat_map (fun o => match o with SRecord r => [r] | _ => [] end) l1).
  { unfold p. assert (G : forall q, p_cur (fold_left plain_step l1 q)
        = p_cur q ++ flat_map (fun o => match o with SRecord r => [r] | _ => [] end) l1).
    { clear. induction l1 as [|o l1 IH]; intros q; [cbn; now rewrite app_nil_r|].
      cbn [fold_left]. rewrite IH. destruct o as [r| |i|i]; cbn [plain_step flat_map].
      - cbn. now rewrite <- app_assoc.
      - reflexivity.
      - now destruct (get_plain _ _).
      - now destruct (get_plain _ _). }
    now rewrite G. }
  assert (G : forall q, get_plain (p_snaps q) (List.length (p_snaps p)) = Some (p_cur p) ->
            get_plain (p_snaps (fold_left plain_step l2 q)) (List.length (p_snaps p)) = Some (p_cur p)).
  { clear -Hl2. induction l2 as [|o l2 IH]; intros q H; [exact H|]. cbn in Hl2.
    apply andb_prop in Hl2 as [Ho Hl2]. cbn [fold_left]. apply IH; [exact Hl2|].
    assert (K : forall x, get_plain (p_snaps q ++ [x]) (List.length (p_snaps p)) = Some (p_cur p)).
    { intros x. unfold get_plain in *.
      destruct (nth_error (p_snaps q) (List.length (p_snaps p))) as [y|] eqn:E; [|discriminate].
      now rewrite (nth_app_old _ _ _ _ E). }
    destruct o; cbn [plain_step]; [exact H|apply K| |discriminate].
    destruct (get_plain _ i); [apply K|exact H]. }
  rewrite G; [now rewrite C|]. cbn [plain_step p_snaps]. unfold get_plain. now rewrite nth_app_new.
Qed.
Print Assumptions snapshot_is_stable.

Example snapshot_ex :
  let r1 := mk_record (demo_key "red") (lit "a-1") (lit "x") in
  let r2 := mk_record (demo_key "blue") (lit "a-2") (lit "y") in
  view (srun new_store [SRecord r1; SRead; SRecord r2; SRead; SClone 0; SDrop 0; SRecord r1]) 1
    = Some [r1; r2]
  /\ view (srun new_store [SRecord r1; SRead; SRecord r2; SRead; SClone 0; SDrop 0; SRecord r1]) 2
    = Some [r1].
Proof. now vm_compute. Qed.

(** ** C50: static markup *)

Lemma cut_first stop s t :
  (forall a b, s = a ++ b -> b <> [] -> ~ exists t', b ++ stop ++ t = stop ++ t') ->
  cut_at stop (s ++ stop ++ t) s t.
Proof.
  induction s as [|c s IH]; intros H; [exact (cut_here stop t)|]. cbn [app]. apply cut_later.
  - apply (H [] (c :: s)); [reflexivity|discriminate].
  - apply IH. intros a b -> Hb. apply (H (c :: a) b); auto.
Qed.

(** The end tag overlaps with itself nowhere. *)
Lemma end_tag_cut s t : no_end_tag s -> cut_at (lit "</style") (s ++ lit "</style" ++ t) s t.
Proof.
  intros H. apply cut_first. intros a b -> Hb [t' E].
  assert (L : List.length b < 7 \/ 7 <= List.length b) by lia. destruct L as [L|L].
  - (* a proper overlap: some later position of the tag would hold its first character *)
    destruct b as [|c0 b]; [contradiction|].
    destruct b as [|c1 b]; [|destruct b as [|c2 b]; [|destruct b as [|c3 b]; [|destruct b as [|c4 b];
      [|destruct b as [|c5 b]; [|destruct b as [|c6 b]; [|cbn in L; lia]]]]]];
      cbn in E; discriminate E.
  - apply H. exists a, (skipn 7 b).
    assert (F : firstn 7 b = lit "</style").
    { apply (f_equal (firstn 7)) in E.
      rewrite firstn_app, (proj2 (Nat.sub_0_le 7 (List.length b))) in E by exact L.
      rewrite firstn_O, app_nil_r in E. rewrite E. reflexivity. }
    rewrite <- F at 1. now rewrite firstn_skipn.
Qed.

Lemma quote_cut s t : ~ In (ch """") s -> cut_at (lit """") (s ++ lit """" ++ t) s t.
Proof.
  intros H. apply cut_first. intros a b -> Hb [t' E]. destruct b as [|c b]; [contradiction|].
  cbn in E. injection E as E _. apply H. apply in_app_iff. right. left. exact E.
Qed.

(** The markup has one element per record, in order, with its id and its escaped text, for any
    escaping that leaves no end tag and ids without double quotes. *)
Theorem static_markup_lists_records : forall esc d,
  (forall s, no_end_tag (esc s)) -> (forall r, In r d -> ~ In (ch """") (r_id r)) ->
  reads_as (static_markup esc d) (map (fun r => (r_id r, esc (r_text r))) d).
Proof.
  intros esc d He. induction d as [|r d IH]; intros Hd; [constructor|].
  assert (E : static_markup esc (r :: d)
    = lit "<style data-style=""" ++ r_id r ++ lit """" ++ lit ">" ++ esc (r_text r)
      ++ lit "</style" ++ lit ">" ++ static_markup esc d).
  { unfold static_markup. cbn [flat_map]. unfold element_markup at 1. rewrite <- !app_assoc.
    reflexivity. }
  rewrite E. cbn [map]. apply (reads_cons _ (esc (r_text r) ++ lit "</style" ++ lit ">" ++ static_markup esc d)
                    (static_markup esc d)).
  - apply quote_cut. apply Hd. now left.
  - apply end_tag_cut, He.
  - apply IH. intros x Ix. apply Hd. now right.
Qed.
Print Assumptions static_markup_lists_records.

Example static_markup_ex :
  static_markup (fun s => s) [mk_record (demo_key "red") (lit "stylist-style-0") (lit "a{}");
                              mk_record (demo_key "blue") (lit "b") (lit "")]
  = lit "<style data-style=""stylist-style-0"">a{}</style><style data-style=""b""></style>".
Proof. reflexivity. Qed.

(** The id is written unescaped: a prefix holding a double quote ends the attribute early. *)
Theorem static_markup_lists_records_refuted :
  exists ws d, reaches server_env []
      [OBuild (lit "x""") None true true;
       OCreate 0 (mk_key false (lit "x""") (demo_sheet "red"))] ws
    /\ snd (step server_env ws (ORead 0)) = RData d
    /\ forall esc, ~ reads_as (static_markup esc d) (map (fun r => (r_id r, esc (r_text r))) d).
Proof.
  do 2 eexists. split; [eexists; vm_compute; reflexivity|]. split; [vm_compute; reflexivity|].
  intros esc R. unfold static_markup, element_markup in R. cbn [map flat_map r_id r_text] in R.
  match type of R with context [esc ?t] => set (x := esc t) in R; clearbody x end.
  match type of R with reads_as ?s ?l => remember s as s0 eqn:E; remember l as l0 eqn:El end.
  destruct R as [|s s1 s2 id text l C _ _]; [discriminate|].
  injection El as -> _ _. cbn in E. injection E as ->.
  inversion C as [|c t a b N C1]; subst. inversion C1 as [|c' t' a' b' N' C2]; subst.
  apply N'. eexists. reflexivity.
Qed.
Print Assumptions static_markup_lists_records_refuted.
