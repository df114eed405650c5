(** * PropsManager: styles, managers and the document (C18-C27, C51, C52). *)

From Coq Require Import String Ascii List NArith Bool Arith Lia Sorted.
From Verif Require Import Str StrFacts Ast Render CssParser Ids IdFacts Manager SpecManager
  ManagerFacts ManagerInv ManagerSteps ManagerCore ManagerProps Hydrate.
Import ListNotations.
Local Open Scope list_scope.
Local Opaque parse to_style_str.

(** ** A page and a program for the examples *)

(** Head and body; the head already holds a [<style>] of a server-rendered style and a
    [<meta>]. *)
Definition demo_page : dom :=
  [ mk_container true true [EOther; EStyle (lit "srv-1") (lit ".srv-1 {}")];
    mk_container true true [] ].
(** Other code removes the node it means, and never one of ours. *)
Example other_code_removes :
  remove_other [EOther; EStyle (lit "srv-1") []; EOther] 2 = [EOther; EStyle (lit "srv-1") []]
  /\ remove_other [EOther; EStyle (lit "srv-1") []; EOther] 1 = [EOther; EStyle (lit "srv-1") []; EOther].
Proof. split; reflexivity. Qed.
Definition demo_env : env := mk_env true true (Some 0) false counter_entropy.
Definition demo_sheet (v : string) : sheet :=
  [SBlock [] [CAttr (mk_attr (lit "color") [lit v])]].
Definition demo_key (v : string) : key := style_key (lit "stylist") (demo_sheet v).

(** A manager on the head and one on the body; three styles, a clone, an unregistration and
    some drops. *)
Definition demo_history : list op :=
  [ OBuild (lit "stylist") None true false;
    OBuild (lit "other") (Some 1) true false;
    OCreate 0 (demo_key "red");
    OCreate 0 (demo_key "blue");
    OCreate 1 (mk_key true (lit "other") (demo_sheet "red"));
    OCloneStyle 0;
    OUnregister 0;
    ODropStyle 0;
    OInsertOther 0 1;
    ODropStyle 1 ].
Definition demo_world : world := fst (run demo_env (start demo_page) demo_history).

Lemma demo_reaches : reaches demo_env demo_page demo_history demo_world.
Proof. exists (snd (run demo_env (start demo_page) demo_history)). apply surjective_pairing. Qed.

(** With the counter no clash is possible while the page and the loaded data have no id that
    ends like a counter id. *)
Theorem counter_no_clash : forall e page l n,
  e_draw e = counter_entropy -> (N.of_nat n <= 2 ^ 64)%N ->
  (forall id, In id (page_ids page) \/ In id (loaded_ids l) ->
     forall p m, id <> p ++ lit "-style-" ++ decimal m) ->
  no_clash e page l n.
Proof.
  intros e page l n E L H. rewrite <- (Nat2N.id n) in *. unfold no_clash. rewrite E.
  split; [apply counter_draws_apart; lia|].
  assert (G : forall id, In id (page_ids page) \/ In id (loaded_ids l) ->
            not_drawn counter_entropy (N.to_nat (N.of_nat n)) id).
  { intros id I i _ p. unfold counter_entropy. now apply H. }
  split; auto.
Qed.
Print Assumptions counter_no_clash.

Lemma demo_no_clash n : (N.of_nat n <= 2 ^ 64)%N -> no_clash demo_env demo_page demo_history n.
Proof.
  intros L. apply counter_no_clash; auto. intros id [I|I] p m; cbn in I; [|contradiction].
  destruct I as [<-|[]]. intros E. apply (f_equal (@List.rev _)) in E.
  change (lit "-style-") with (lit "-style" ++ [dash]) in E.
  rewrite <- app_assoc, app_assoc in E. 
  assert (C : lit "srv" ++ dash :: lit "1" = (p ++ lit "-style") ++ dash :: decimal m).
  { apply (f_equal (@List.rev _)) in E. rewrite !rev_involutive in E. exact E. }
  apply cut_at_last_dash in C as [C _]; [|cbv; intuition discriminate|apply digits_no_dash].
  apply (f_equal (fun l => nth 0 (List.rev l) 0%N)) in C. rewrite rev_app_distr in C.
  discriminate C.
Qed.

(** ** C19: ids *)

Theorem counter_ids_never_collide : forall i j g p g' p',
  (N.of_nat i < 2 ^ 64)%N -> (N.of_nat j < 2 ^ 64)%N -> i <> j ->
  new_id g p (counter_entropy i) <> new_id g' p' (counter_entropy j).
Proof.
  intros i j g p g' p' Hi Hj Hij. apply (apart_ids _ (S (Nat.max i j))); try lia.
  apply counter_draws_apart. destruct (Nat.max_spec i j) as [[_ ->]|[_ ->]]; lia.
Qed.
Print Assumptions counter_ids_never_collide.

Example counter_ids_ex :
  new_id false (lit "stylist") (counter_entropy 12) = lit "stylist-style-12"
  /\ new_id true (lit "a-b") (counter_entropy 0) = lit "a-b-global-style-0".
Proof. split; reflexivity. Qed.

(** The bound is needed: the counter wraps around. *)
Theorem counter_ids_wrap_around : forall g p i,
  new_id g p (counter_entropy (i + N.to_nat (2 ^ 64))) = new_id g p (counter_entropy i).
Proof.
  intros g p i. unfold counter_entropy. do 3 f_equal.
  rewrite Nat2N.inj_add, N2Nat.id, <- N.add_mod_idemp_r, N.mod_same, N.add_0_r; easy.
Qed.
Print Assumptions counter_ids_wrap_around.

Theorem random_ids_never_collide : forall d d' g p g' p',
  rand_entropy d -> rand_entropy d' -> d <> d' -> new_id g p d <> new_id g' p' d'.
Proof.
  intros d d' g p g' p' R R' N.
  pose proof (random_draws_apart (fun i => if Nat.eqb i 0 then d else d') 2) as A.
  apply (apart_ids (fun i => if Nat.eqb i 0 then d else d') 2 0 1); auto.
  apply A.
  - intros i _. now destruct (Nat.eqb i 0).
  - intros [|[|i]] [|[|j]]; cbn; try lia; congruence.
Qed.
Print Assumptions random_ids_never_collide.

Example random_ids_ex : rand_entropy (lit "aB3dE6gH") /\ rand_entropy (lit "aB3dE6gI").
Proof. split; split; reflexivity. Qed.

(** In a history: handles with the same class name are handles on the same style. *)
Theorem same_name_same_style : forall e page l w a b ca,
  reaches e page l w -> no_clash e page l (w_draws w) ->
  handle_content w a = Some ca -> c_hydrated ca = false ->
  get_id w a = get_id w b -> handle_of (w_handles w) a = handle_of (w_handles w) b.
Proof.
  intros e page l w a b ca R C Ha Hh E. apply (reaches_inv _ _ _ _ R) in C as I.
  destruct (i_ids _ _ _ _ _ I) as [_ U].
  unfold get_id in E. rewrite Ha in E. cbn in E.
  destruct (handle_content w b) as [cb|] eqn:Hb; [|discriminate E]. injection E as E.
  unfold handle_content in Ha, Hb.
  destruct (handle_of (w_handles w) a) as [i|]; [|discriminate].
  destruct (handle_of (w_handles w) b) as [j|]; [|discriminate].
  destruct (Nat.eq_dec i j) as [->|N]; [reflexivity|]. exfalso. now apply (U i j ca cb).
Qed.
Print Assumptions same_name_same_style.

Example same_name_same_style_ex :
  option_map c_hydrated (handle_content demo_world 3) = Some false
  /\ get_id demo_world 3 = Some (lit "stylist-style-0")
  /\ get_id demo_world 2 = Some (lit "other-global-style-2").
Proof. now vm_compute. Qed.

(** ** C18: one style per key *)

Lemma handle_new l (c : nat) : handle_of (l ++ [Some c]) (List.length l) = Some c.
Proof. unfold handle_of. now rewrite nth_app_new. Qed.

Lemma retain_content cid c w :
  nth_error (w_contents w) cid = Some c ->
  nth_error (w_contents (retain cid w)) cid = Some (set_strong (S (c_strong c)) c).
Proof. intros H. cbn. now rewrite nth_upd_eq, H. Qed.

(** Creating a style under a registered key: the same style, nothing else changes. *)
Theorem create_registered_shares : forall e page l w h mi k cid c,
  reaches e page l w -> handle_of (w_mhandles w) h = Some mi ->
  registered w mi k cid -> nth_error (w_contents w) cid = Some c ->
  exists w', step e w (OCreate h k) = (w', RHandle (List.length (w_handles w)))
    /\ get_id w' (List.length (w_handles w)) = Some (c_id c)
    /\ get_style_str w' (List.length (w_handles w)) = Some (c_text c)
    /\ handle_of (w_handles w') (List.length (w_handles w)) = Some cid
    /\ w_mgrs w' = w_mgrs w /\ w_dom w' = w_dom w /\ w_draws w' = w_draws w.
Proof.
  intros e page l w h mi k cid c R Hh Hr Hc. apply reaches_core in R.
  destruct Hr as (m & Hm & I). destruct (o_reg _ _ _ _ R _ _ Hm) as (ND & _).
  cbn [step]. rewrite Hh. unfold get_or_register.
  rewrite Hm, (reg_get_complete _ _ _ ND I). eexists. split; [reflexivity|].
  unfold get_id, get_style_str, handle_content. cbn [w_handles with_handles retain with_contents].
  rewrite handle_new. cbn. rewrite nth_upd_eq, Hc. cbn. auto 10.
Qed.
Print Assumptions create_registered_shares.

(** The same key twice, with anything but an unregistration in between, on any handle of the
    manager. *)
Theorem create_twice_same : forall e page l w h h' mi k a w1 l2 w2,
  reaches e page l w -> handle_of (w_mhandles w) h = Some mi ->
  step e w (OCreate h k) = (w1, RHandle a) ->
  w2 = fst (run e w1 l2) -> forallb (fun o => negb (is_unregister o)) l2 = true ->
  handle_of (w_mhandles w2) h' = Some mi ->
  exists w3 b, step e w2 (OCreate h' k) = (w3, RHandle b)
    /\ get_id w3 b = get_id w1 a /\ get_style_str w3 b = get_style_str w1 a
    /\ w_mgrs w3 = w_mgrs w2 /\ w_dom w3 = w_dom w2.
Proof.
  intros e page l w h h' mi k a w1 l2 w2 R Hh S -> Ok Hh'.
  assert (R1 : reaches e page (l ++ [OCreate h k]) w1).
  { destruct R as [rs R]. exists (snd (run e (start page) (l ++ [OCreate h k]))).
    rewrite (surjective_pairing (run e (start page) (l ++ [OCreate h k]))). cbn [snd].
    f_equal. rewrite run_app, R. cbn [fst]. rewrite run_cons, S. reflexivity. }
  assert (R2 : reaches e page ((l ++ [OCreate h k]) ++ l2) (fst (run e w1 l2))).
  { destruct R1 as [rs R1]. exists (snd (run e (start page) ((l ++ [OCreate h k]) ++ l2))).
    rewrite (surjective_pairing (run e (start page) ((l ++ [OCreate h k]) ++ l2))). cbn [snd].
    f_equal. rewrite run_app, R1. reflexivity. }
  apply reaches_core in R as C0. apply reaches_core in R1 as C1. apply reaches_core in R2 as C2.
  assert (G : exists cid c, registered w1 mi k cid /\ nth_error (w_contents w1) cid = Some c
                /\ handle_of (w_handles w1) a = Some cid).
  { cbn [step] in S. rewrite Hh in S. destruct (core_manager _ _ _ _ _ _ C0 Hh) as (m & Hm & Hs).
    unfold get_or_register in S. rewrite Hm in S.
    destruct (reg_get (m_reg m) k) as [cid|] eqn:G.
    - injection S as <- <-. apply reg_get_in in G.
      destruct (core_registered _ _ _ _ _ _ _ _ C0 Hm G) as (c & Hc & _).
      exists cid, (set_strong (Datatypes.S (c_strong c)) c).
      split; [exists m; auto|]. split; [now apply retain_content|apply handle_new].
    - cbv zeta in S. destruct (e_debug e && _); [discriminate S|].
      destruct (m_data m) as [ld|].
      + injection S as <- <-. unfold admit_content. cbn.
        exists (List.length (w_contents w)). eexists. split; [|split; [apply nth_app_new|apply handle_new]].
        eexists. cbn. rewrite upd_upd, nth_upd_eq, Hm. split; [reflexivity|]. cbn.
        apply in_app_iff. right. now left.
      + destruct (mount _ _ _ _ _); [|discriminate S]. injection S as <- <-.
        unfold admit_content. cbn.
        exists (List.length (w_contents w)). eexists. split; [|split; [apply nth_app_new|apply handle_new]].
        eexists. cbn. rewrite nth_upd_eq, Hm. split; [reflexivity|]. cbn.
        apply in_app_iff. right. now left. }
  destruct G as (cid & c & Rg & Hc & Ha).
  assert (Rg2 : registered (fst (run e w1 l2)) mi k cid).
  { apply (run_registered e (loaded_ids (l ++ [OCreate h k]))); auto.
    destruct (core_manager _ _ _ _ _ _ C2 Hh') as (m & Hm & Hs). unfold mstrong_of. now rewrite Hm. }
  assert (Hb : exists d, nth_error (w_contents (fst (run e w1 l2))) cid = Some d
                 /\ c_id d = c_id c /\ c_text d = c_text c).
  { destruct (run_contents e l2 w1 cid c Hc) as (d & Hd & B). exists d.
    apply base_fields in B. intuition congruence. }
  destruct Hb as (d & Hd & D1 & D2).
  destruct (create_registered_shares e page _ _ h' mi k cid d R2 Hh' Rg2 Hd)
    as (w3 & S3 & A1 & A2 & _ & A4 & A5 & _).
  exists w3, (List.length (w_handles (fst (run e w1 l2)))). split; [exact S3|].
  unfold get_id, get_style_str, handle_content in *. rewrite Ha, Hc. cbn. rewrite A1, A2. intuition congruence.
Qed.
Print Assumptions create_twice_same.

Example create_registered_ex :
  handle_of (w_mhandles demo_world) 0 = Some 0 /\ registered demo_world 0 (demo_key "blue") 1
  /\ handle_of (w_handles demo_world) 1 = None
  /\ option_map c_id (nth_error (w_contents demo_world) 1) = Some (lit "stylist-style-1").
Proof.
  split; [reflexivity|]. split; [|now vm_compute].
  eexists. split; [vm_compute; reflexivity|]. vm_compute. now left.
Qed.

(** ** C20: registry consistency *)

(** At most one style per key, registered under its own key in its own manager; its text is
    the rendering of its sheet: for a style made here under its id, or under no class if
    global, and for a hydrated style always under its id (see C29). *)
Theorem registry_consistent : forall e page l w mi k cid,
  reaches e page l w -> registered w mi k cid ->
  (forall cid', registered w mi k cid' -> cid' = cid)
  /\ exists c, nth_error (w_contents w) cid = Some c /\ c_key c = k /\ c_mgr c = mi
       /\ c_text c = to_style_str
            (if k_global k && negb (c_hydrated c) then None else Some (c_id c)) (k_ast k)
       /\ if c_hydrated c then In (c_id c) (loaded_ids l)
          else exists n, n < w_draws w /\ c_id c = new_id (k_global k) (k_prefix k) (e_draw e n).
Proof.
  intros e page l w mi k cid R (m & Hm & I). apply reaches_core in R as C.
  destruct (o_reg _ _ _ _ C _ _ Hm) as (ND & _ & H). split.
  - intros cid' (m' & Hm' & I'). rewrite Hm in Hm'. injection Hm' as <-.
    apply (reg_get_complete _ _ _ ND) in I. apply (reg_get_complete _ _ _ ND) in I'. congruence.
  - destruct (H _ _ I) as (c & Hc & Hk & Hi). exists c. split; [exact Hc|]. split; [exact Hk|].
    split; [exact Hi|]. destruct (o_content _ _ _ _ C _ _ Hc) as [_ T].
    unfold text_of, style_text in T. rewrite Hk in T.
    pose proof (o_origin _ _ _ _ C _ _ Hc) as O. unfold made_id in O. rewrite Hk in O. split; [|exact O].
    rewrite T. destruct (c_hydrated c); cbn [negb]; [now rewrite andb_false_r|].
    now rewrite andb_true_r.
Qed.
Print Assumptions registry_consistent.

Example registry_consistent_ex :
  registered demo_world 1 (mk_key true (lit "other") (demo_sheet "red")) 2
  /\ option_map c_text (nth_error (w_contents demo_world) 2)
     = Some (to_style_str None (demo_sheet "red")).
Proof.
  split; [|now vm_compute]. eexists. split; [vm_compute; reflexivity|]. vm_compute. now left.
Qed.

(** ** C21: in the document exactly while alive *)

Lemma shown_alive e page w k c cid :
  counted [] w -> nth_error (w_contents w) cid = Some c ->
  e_wasm e = true -> e_document e = true -> plain_ident (c_id c) = true ->
  place (w_mgrs w) c = Some k -> reachable_node page k = true ->
  (shown e page (w_mgrs w) k c = true <-> alive w cid).
Proof.
  intros C Hc W D P Pl Rk. rewrite (alive_strong w cid C). unfold strong_of. rewrite Hc.
  unfold shown, stuck. rewrite W, D, P, Pl, Rk, Nat.eqb_refl. cbn.
  destruct (c_strong c); cbn; split; (discriminate || lia || reflexivity).
Qed.

Lemma mounts_place w c k : mounts_into w c k -> place (w_mgrs w) c = Some k.
Proof. intros (H & m & Hm & D & K). unfold place. now rewrite H, Hm, D, K. Qed.

Lemma place_mounts w c k : place (w_mgrs w) c = Some k -> mounts_into w c k.
Proof.
  unfold place. destruct (c_hydrated c) eqn:H; [discriminate|].
  destruct (nth_error (w_mgrs w) (c_mgr c)) as [m|] eqn:Hm; [|discriminate].
  destruct (m_data m) eqn:D; [discriminate|]. intros K. split; [exact H|]. now exists m.
Qed.

Lemma in_document_node page k : in_document page k <-> reachable_node page k = true.
Proof.
  unfold in_document, reachable_node. destruct (nth_error page k) as [n|].
  - split; [now intros (n' & [= <-] & H)|]. now exists n.
  - split; [now intros (n' & ? & H)|discriminate].
Qed.

(** A style made by a mounting manager, with a class name that is a plain identifier: exactly
    one element with its text while it is alive, none afterwards. *)
Theorem in_document_exactly_while_alive : forall e page l w cid c k,
  reaches e page l w -> no_clash e page l (w_draws w) ->
  e_wasm e = true -> e_document e = true ->
  nth_error (w_contents w) cid = Some c -> mounts_into w c k -> in_document page k ->
  plain_ident (c_id c) = true ->
  (alive w cid -> texts_of (c_id c) (w_dom w) = [c_text c])
  /\ (~ alive w cid -> texts_of (c_id c) (w_dom w) = []).
Proof.
  intros e page l w cid c k R NC W D Hc Hk Hd P. apply (reaches_inv _ _ _ _ R) in NC as I.
  destruct NC as (A & B & _). apply mounts_place in Hk. apply in_document_node in Hd.
  pose proof (texts_of_content e page _ (w_draws w) w cid c k A B I (le_n _) Hc Hk Hd) as T.
  pose proof (shown_alive e page w k c cid (i_counted _ _ _ _ _ I) Hc W D P Hk Hd) as S.
  destruct (shown e page (w_mgrs w) k c).
  - split; [auto|]. intros N. exfalso. now apply N, S.
  - split; [|auto]. intros N. apply S in N. discriminate.
Qed.
Print Assumptions in_document_exactly_while_alive.

(** Nothing else: an element of the document whose id is no id of the original page is that of
    a living style. *)
Theorem no_other_elements : forall e page l w id t,
  reaches e page l w -> no_clash e page l (w_draws w) ->
  e_document e = true -> plain_ident id = true ->
  In t (texts_of id (w_dom w)) ->
  In id (page_ids page)
  \/ exists cid c k, nth_error (w_contents w) cid = Some c /\ alive w cid /\ c_id c = id
       /\ c_text c = t /\ mounts_into w c k /\ in_document page k.
Proof.
  intros e page l w id t R NC D P It.
  destruct (in_dec str_eq_dec id (page_ids page)) as [Ip|Np]; [now left|right].
  apply (reaches_inv _ _ _ _ R) in NC as I.
  unfold texts_of in It. apply in_flat_map in It as (n & In_ & It).
  destruct (n_in_document n) eqn:Dn; [|contradiction].
  apply In_nth_error in In_ as [k Hk].
  destruct (i_dom _ _ _ _ _ I) as [_ H]. destruct (H _ _ Hk) as (n0 & A & B & _ & F).
  assert (E : In (EStyle id t) (filter (own page) (n_children n))).
  { apply filter_In. split; [|now apply own_in].
    unfold texts_in in It. apply in_flat_map in It as ([i x|] & Ix & Jx); [|contradiction].
    destruct (str_eqb i id) eqn:Q; [|contradiction]. apply str_eqb_eq in Q.
    destruct Jx as [->|[]]. now subst. }
  rewrite F in E. apply in_map_iff in E as (c & Ec & Ic). apply filter_In in Ic as [Ic Sc].
  apply In_nth_error in Ic as [cid Hc]. unfold elem in Ec. injection Ec as E1 E2.
  apply shown_inv in Sc as S. destruct S as (W & Pl & Hh & _).
  assert (Rk : reachable_node page k = true) by (unfold reachable_node; rewrite A; congruence).
  assert (Pc : plain_ident (c_id c) = true) by congruence.
  exists cid, c, k. split; [exact Hc|]. split.
  - now apply (shown_alive e page w k c cid (i_counted _ _ _ _ _ I)).
  - repeat split; auto; [now apply place_mounts|now apply in_document_node].
Qed.
Print Assumptions no_other_elements.

(** What the page held at the start stays, but for one element with the id of a hydrated style
    for each such style that died. *)
Theorem page_elements : forall e page l w id,
  reaches e page l w -> no_clash e page l (w_draws w) ->
  e_wasm e = true -> e_document e = true -> plain_ident id = true ->
  In id (page_ids page) ->
  (* no hydrated style with this id, or a living one: untouched *)
  ((forall cid c, nth_error (w_contents w) cid = Some c -> c_id c = id -> alive w cid) ->
     texts_of id (w_dom w) = texts_of id page)
  (* the only one is dead: its element is gone *)
  /\ (forall cid c, nth_error (w_contents w) cid = Some c -> c_id c = id -> ~ alive w cid ->
        (forall cid' c', nth_error (w_contents w) cid' = Some c' -> c_id c' = id -> cid' = cid) ->
        texts_of id (w_dom w) = tl (texts_of id page)).
Proof.
  intros e page l w id R NC W D P Ip. apply (reaches_inv _ _ _ _ R) in NC as I.
  pose proof (i_page _ _ _ _ _ I id Ip) as T. unfold gone in T. rewrite W, D, P in T. cbn [andb] in T.
  set (f := fun c => c_hydrated c && str_eqb (c_id c) id && Nat.eqb (c_strong c) 0) in T.
  pose proof (fun x => alive_strong w x (i_counted _ _ _ _ _ I)) as AS.
  split.
  - intros H. rewrite T.
    assert (E : filter f (w_contents w) = []).
    { destruct (filter f (w_contents w)) as [|c l0] eqn:F; [reflexivity|exfalso].
      assert (J : In c (filter f (w_contents w))) by (rewrite F; now left).
      apply filter_In in J as [J Fc]. apply In_nth_error in J as [cid Hc]. unfold f in Fc.
      apply andb_prop in Fc as [Fc F2]. apply andb_prop in Fc as [_ F1]. apply str_eqb_eq in F1.
      apply Nat.eqb_eq in F2. specialize (H _ _ Hc F1). apply AS in H.
      unfold strong_of in H. rewrite Hc in H. lia. }
    now rewrite E.
  - intros cid c Hc Hi Na U. rewrite T.
    assert (S0 : c_strong c = 0).
    { destruct (c_strong c) eqn:S; [reflexivity|]. exfalso. apply Na, AS. unfold strong_of.
      rewrite Hc. lia. }
    assert (Hh : c_hydrated c = true).
    { destruct (c_hydrated c) eqn:Hh; [reflexivity|exfalso].
      destruct NC as (_ & B & _). rewrite <- Hi in Ip. revert Ip.
      now apply (created_not_page e page _ (w_draws w) B w cid c (i_ids _ _ _ _ _ I)). }
    destruct (nth_error_split _ _ Hc) as (a & b & E & La).
    assert (Z : forall m off, (forall i x, nth_error m i = Some x -> nth_error (w_contents w) (off + i) = Some x) ->
              (forall i, i < List.length m -> off + i <> cid) -> filter f m = []).
    { induction m as [|x m IH]; intros off H1 H2; [reflexivity|]. cbn [filter].
      assert (fx : f x = false).
      { destruct (f x) eqn:F; [exfalso|reflexivity]. unfold f in F.
        apply andb_prop in F as [F _]. apply andb_prop in F as [_ F]. apply str_eqb_eq in F.
        apply (H2 0); [cbn; lia|]. apply (U (off + 0) x); [|exact F]. now apply H1. }
      rewrite fx. apply (IH (S off)).
      - intros i y Hy. replace (S off + i) with (off + S i) by lia. now apply H1.
      - intros i Hl. replace (S off + i) with (off + S i) by lia. apply H2. cbn. lia. }
    assert (E2 : filter f (w_contents w) = [c]).
    { rewrite E, filter_app. cbn [filter].
      assert (fc : f c = true) by (unfold f; now rewrite Hh, Hi, str_eqb_refl, S0).
      rewrite fc. rewrite (Z a 0), (Z b (S cid)); [reflexivity| | | |].
      - intros i x Hx. rewrite E. rewrite nth_error_app2 by lia.
        replace (S cid + i - List.length a) with (S i) by lia. exact Hx.
      - intros i _. lia.
      - intros i x Hx. cbn. rewrite E. rewrite nth_error_app1; [exact Hx|]. now apply nth_lt in Hx.
      - intros i Hl. cbn. lia. }
    rewrite E2. cbn [List.length]. now destruct (texts_of id page).
Qed.
Print Assumptions page_elements.

(** Class names are plain identifiers when the prefix is one (and the entropy is made of
    identifier characters, as both sources of entropy are). *)
Theorem plain_prefix_plain_id : forall g p d,
  plain_ident p = true -> forallb ident_char d = true -> plain_ident (new_id g p d) = true.
Proof.
  intros g p d Hp Hd.
  assert (G : forall q, forallb ident_char q = true -> plain_ident (p ++ q) = true).
  { intros q Hq. unfold plain_ident in *. destruct p as [|c p]; [discriminate|]. cbn [app].
    destruct (char_eqb c (ch "-")).
    - destruct p as [|c' p]; [discriminate|]. cbn [app]. rewrite forallb_app, Hq, andb_true_r. exact Hp.
    - rewrite forallb_app, Hq, andb_true_r. exact Hp. }
  unfold new_id, new_global, new_scoped. destruct g; apply G; rewrite forallb_app, Hd; reflexivity.
Qed.
Print Assumptions plain_prefix_plain_id.

Theorem entropy_is_plain :
  (forall n, forallb ident_char (counter_entropy n) = true)
  /\ (forall d, rand_entropy d -> forallb ident_char d = true).
Proof.
  split.
  - intros n. unfold counter_entropy. rewrite forallb_app. cbn [andb].
    assert (G : forall u, forallb ident_char (uint_digits u) = true) by (induction u; auto).
    apply G.
  - intros d [_ H]. apply forallb_forall. rewrite forallb_forall in H. intros x Ix. specialize (H x Ix).
    unfold ident_char, ident_start, is_ascii_alnum in *.
    apply orb_prop in H as [->| ->]; [reflexivity|]. now rewrite !orb_true_r.
Qed.
Print Assumptions entropy_is_plain.

(** In the example: [red] was unregistered and its first handle dropped, but a clone is alive;
    dropping the clone removes the element. *)
Example in_document_ex :
  (exists c, nth_error (w_contents demo_world) 0 = Some c /\ mounts_into demo_world c 0
     /\ plain_ident (c_id c) = true /\ c_id c = lit "stylist-style-0"
     /\ texts_of (c_id c) (w_dom demo_world) = [c_text c]
     /\ texts_of (c_id c) (w_dom (fst (step demo_env demo_world (ODropStyle 3)))) = [])
  /\ in_document demo_page 0 /\ no_clash demo_env demo_page demo_history (w_draws demo_world).
Proof.
  split; [|split].
  - eexists. split; [vm_compute; reflexivity|]. split; [|now vm_compute].
    split; [reflexivity|]. eexists. split; [vm_compute; reflexivity|]. now split.
  - now eexists.
  - apply demo_no_clash. vm_compute. discriminate.
Qed.

(** ** C52: elements that are never removed *)

Definition leaks (e : env) (page : dom) (l : list op) : Prop :=
  exists w cid c k n, reaches e page l w /\ nth_error (w_contents w) cid = Some c
    /\ mounts_into w c k /\ ~ alive w cid
    /\ nth_error (w_dom w) k = Some n /\ In (EStyle (c_id c) (c_text c)) (n_children n).

Lemma not_alive_check e page l w cid :
  reaches e page l w -> strong_of (w_contents w) cid = 0 -> ~ alive w cid.
Proof.
  intros R Z A. apply reaches_core in R. apply (alive_strong w cid (o_counted _ _ _ _ R)) in A. lia.
Qed.

(** A container outside the document, e.g. a shadow root: [unmount] asks the document. *)
Theorem removed_when_dropped_shadow_root_refuted :
  leaks demo_env [mk_container false true []]
    [OBuild (lit "stylist") (Some 0) true false; OCreate 0 (demo_key "red"); OUnregister 0;
     ODropStyle 0].
Proof.
  unfold leaks. match goal with |- context [reaches ?e ?p ?l _] =>
    exists (fst (run e (start p) l)), 0; pose proof (conj (ex_intro (fun rs => run e (start p) l = (fst (run e (start p) l), rs)) (snd (run e (start p) l)) (surjective_pairing (run e (start p) l))) I) as [R _] end.
  eexists. exists 0. eexists. split; [exact R|]. split; [vm_compute; reflexivity|].
  split; [split; [reflexivity|]; eexists; split; [vm_compute; reflexivity|now split]|].
  split; [apply (not_alive_check _ _ _ _ _ R); now vm_compute|].
  split; [vm_compute; reflexivity|]. vm_compute. now left.
Qed.
Print Assumptions removed_when_dropped_shadow_root_refuted.

(** A prefix that is no identifier: the selector of [unmount] is malformed. *)
Theorem removed_when_dropped_bad_prefix_refuted :
  leaks demo_env demo_page
    [OBuild (lit "1") None true false; OCreate 0 (mk_key false (lit "1") (demo_sheet "red"));
     OUnregister 0; ODropStyle 0].
Proof.
  unfold leaks. match goal with |- context [reaches ?e ?p ?l _] =>
    exists (fst (run e (start p) l)), 0; pose proof (conj (ex_intro (fun rs => run e (start p) l = (fst (run e (start p) l), rs)) (snd (run e (start p) l)) (surjective_pairing (run e (start p) l))) I) as [R _] end.
  eexists. exists 0. eexists. split; [exact R|]. split; [vm_compute; reflexivity|].
  split; [split; [reflexivity|]; eexists; split; [vm_compute; reflexivity|now split]|].
  split; [apply (not_alive_check _ _ _ _ _ R); now vm_compute|].
  split; [vm_compute; reflexivity|]. vm_compute. right. right. now left.
Qed.
Print Assumptions removed_when_dropped_bad_prefix_refuted.

(** Exactly these: with a container in the document and a plain prefix nothing leaks. *)
Theorem removed_when_dropped_partial : forall e page l w cid c k,
  reaches e page l w -> no_clash e page l (w_draws w) ->
  e_wasm e = true -> e_document e = true ->
  nth_error (w_contents w) cid = Some c -> mounts_into w c k -> in_document page k ->
  plain_ident (k_prefix (c_key c)) = true ->
  (forall n, forallb ident_char (e_draw e n) = true) ->
  ~ alive w cid -> texts_of (c_id c) (w_dom w) = [].
Proof.
  intros e page l w cid c k R NC W D Hc Hk Hd P E Na.
  apply (in_document_exactly_while_alive e page l w cid c k); auto.
  pose proof (o_origin _ _ _ _ (reaches_core _ _ _ _ R) _ _ Hc) as O.
  destruct Hk as [Hh _]. rewrite Hh in O. destruct O as (n & _ & ->).
  now apply plain_prefix_plain_id.
Qed.
Print Assumptions removed_when_dropped_partial.

(** ** C22: creation order *)

(** A new style of an appending manager becomes the last child of its container. *)
Theorem append_places_last : forall e page l w h mi m k kc w' a,
  reaches e page l w -> e_wasm e = true ->
  handle_of (w_mhandles w) h = Some mi -> nth_error (w_mgrs w) mi = Some m ->
  m_append m = true -> m_data m = None -> m_container m = Some kc ->
  (forall cid, ~ registered w mi k cid) ->
  step e w (OCreate h k) = (w', RHandle a) ->
  exists n id text, nth_error (w_dom w) kc = Some n
    /\ get_id w' a = Some id /\ get_style_str w' a = Some text
    /\ nth_error (w_dom w') kc
       = Some (mk_container (n_in_document n) (n_accepts n) (n_children n ++ [EStyle id text]))
    /\ forall j, j <> kc -> nth_error (w_dom w') j = nth_error (w_dom w) j.
Proof.
  intros e page l w h mi m k kc w' a R W Hh Hm Ap Dt Ct Nr S. cbn [step] in S. rewrite Hh in S.
  unfold get_or_register in S. rewrite Hm in S.
  destruct (reg_get (m_reg m) k) as [cid|] eqn:G.
  { exfalso. apply (Nr cid). exists m. split; [exact Hm|]. now apply reg_get_in. }
  cbv zeta in S. destruct (e_debug e && _); [discriminate|]. rewrite Dt in S.
  unfold mount in S. rewrite W, Ct, Ap in S. cbn [negb andb] in S.
  destruct (e_document e); [|discriminate]. cbn [negb draw w_dom] in S.
  destruct (nth_error (w_dom w) kc) as [n|] eqn:Hn; [|discriminate].
  destruct (n_accepts n) eqn:An; [|discriminate]. injection S as <- <-.
  exists n. do 2 eexists. split; [reflexivity|].
  unfold get_id, get_style_str, handle_content. cbn [admit_content w_handles w_contents with_dom draw].
  rewrite handle_new, nth_app_new. cbn. split; [reflexivity|]. split; [reflexivity|]. split.
  - rewrite nth_upd_eq, Hn. cbn. unfold set_children. reflexivity.
  - intros j Hj. rewrite nth_upd_ne by congruence. reflexivity.
Qed.
Print Assumptions append_places_last.

(** At every point, the elements this program put into a container are in the order in which
    their styles were created (indices into the contents grow). *)
Theorem elements_in_creation_order : forall e page l w k n,
  reaches e page l w -> no_clash e page l (w_draws w) -> nth_error (w_dom w) k = Some n ->
  exists js, StronglySorted lt js
    /\ Forall2 (fun j x => exists c, nth_error (w_contents w) j = Some c
                                     /\ x = EStyle (c_id c) (c_text c)) js
         (filter (fun x => match x with
                           | EStyle i _ => negb (existsb (str_eqb i) (page_ids page))
                           | EOther => false end) (n_children n)).
Proof.
  intros e page l w k n R NC Hn. apply (reaches_inv _ _ _ _ R) in NC as I.
  destruct (i_dom _ _ _ _ _ I) as [_ D]. destruct (D _ _ Hn) as (n0 & _ & _ & _ & F).
  destruct (filter_sorted (shown e page (w_mgrs w) k) (w_contents w)) as (js & S & F2 & _).
  exists js. split; [exact S|]. change (fun x => match x with
     | EStyle i _ => negb (existsb (str_eqb i) (page_ids page)) | EOther => false end) with (own page).
  rewrite F. clear -F2. induction F2; [constructor|]. cbn [map]. constructor; [|assumption].
  exists y. auto.
Qed.
Print Assumptions elements_in_creation_order.

Example append_ex :
  (exists m, nth_error (w_mgrs demo_world) 0 = Some m /\ m_append m = true /\ m_data m = None
     /\ m_container m = Some 0)
  /\ (let r := step demo_env demo_world (OCreate 0 (demo_key "green")) in
      snd r = RHandle 4
      /\ option_map (fun n => map (fun c => match c with EStyle i _ => i | EOther => [] end)
                                (n_children n)) (nth_error (w_dom (fst r)) 0)
         = Some [[]; []; lit "srv-1"; lit "stylist-style-0"; lit "stylist-style-1";
                 lit "stylist-style-3"]).
Proof. split; [eexists; split; [vm_compute; reflexivity|now vm_compute]|now vm_compute]. Qed.

(** ** C23: prepend mode *)

(** On a container with children every creation fails. *)
Theorem prepend_on_nonempty_always_fails : forall e w h mi m k kc n,
  e_wasm e = true -> e_debug e = false ->
  handle_of (w_mhandles w) h = Some mi -> nth_error (w_mgrs w) mi = Some m ->
  m_append m = false -> m_data m = None -> m_container m = Some kc ->
  (forall cid, ~ registered w mi k cid) ->
  nth_error (w_dom w) kc = Some n -> n_children n <> [] ->
  snd (step e w (OCreate h k)) = RErr.
Proof.
  intros e w h mi m k kc n W Db Hh Hm Ap Dt Ct Nr Hn Hc. cbn [step]. rewrite Hh.
  unfold get_or_register. rewrite Hm. destruct (reg_get (m_reg m) k) as [cid|] eqn:G.
  { exfalso. apply (Nr cid). exists m. split; [exact Hm|]. now apply reg_get_in. }
  cbv zeta. rewrite Db, Dt. cbn [andb]. unfold mount. rewrite W, Ct, Ap. cbn [negb andb draw w_dom].
  rewrite Hn. destruct (n_children n); [contradiction|]. cbn [negb]. now destruct (e_document e).
Qed.
Print Assumptions prepend_on_nonempty_always_fails.

(** So the property fails, already with two styles in a fresh container. *)
Theorem prepend_becomes_first_child_refuted :
  exists w, reaches demo_env demo_page
      [OBuild (lit "stylist") (Some 1) false false; OCreate 0 (demo_key "red")] w
    /\ snd (step demo_env w (OCreate 0 (demo_key "blue"))) = RErr
    /\ snd (step demo_env w (OCreate 0 (demo_key "red"))) = RHandle 1.
Proof.
  eexists. split; [eexists; vm_compute; reflexivity|]. now vm_compute.
Qed.
Print Assumptions prepend_becomes_first_child_refuted.

(** What holds: a creation that succeeds put the element first (and there is nothing else). *)
Theorem prepend_becomes_first_child_partial : forall e page l w h mi m k kc w' a,
  reaches e page l w -> e_wasm e = true ->
  handle_of (w_mhandles w) h = Some mi -> nth_error (w_mgrs w) mi = Some m ->
  m_append m = false -> m_data m = None -> m_container m = Some kc ->
  (forall cid, ~ registered w mi k cid) ->
  step e w (OCreate h k) = (w', RHandle a) ->
  exists n id text, nth_error (w_dom w') kc = Some n
    /\ get_id w' a = Some id /\ get_style_str w' a = Some text
    /\ n_children n = [EStyle id text].
Proof.
  intros e page l w h mi m k kc w' a R W Hh Hm Ap Dt Ct Nr S. cbn [step] in S. rewrite Hh in S.
  unfold get_or_register in S. rewrite Hm in S.
  destruct (reg_get (m_reg m) k) as [cid|] eqn:G.
  { exfalso. apply (Nr cid). exists m. split; [exact Hm|]. now apply reg_get_in. }
  cbv zeta in S. destruct (e_debug e && _); [discriminate|]. rewrite Dt in S.
  unfold mount in S. rewrite W, Ct, Ap in S. cbn [negb andb] in S.
  destruct (e_document e); [|discriminate]. cbn [negb draw w_dom] in S.
  destruct (nth_error (w_dom w) kc) as [n|] eqn:Hn; [|discriminate].
  destruct (n_children n) eqn:Hc; [|discriminate]. cbn [negb] in S.
  destruct (n_accepts n) eqn:An; [|discriminate]. injection S as <- <-.
  do 3 eexists. cbn. rewrite nth_upd_eq, Hn. split; [reflexivity|].
  unfold get_id, get_style_str, handle_content. cbn [admit_content w_handles w_contents with_dom draw].
  rewrite handle_new, nth_app_new. cbn. auto.
Qed.
Print Assumptions prepend_becomes_first_child_partial.

(** ** C24: failures leave no trace *)

(** Apart from the entropy spent. *)
Theorem failed_create_leaves_no_trace : forall e page l w h k w' r,
  reaches e page l w -> no_clash e page l (S (w_draws w)) ->
  step e w (OCreate h k) = (w', r) -> (forall a, r <> RHandle a) ->
  w_contents w' = w_contents w /\ w_mgrs w' = w_mgrs w /\ w_dom w' = w_dom w
  /\ w_handles w' = w_handles w /\ w_mhandles w' = w_mhandles w.
Proof.
  intros e page l w h k w' r R (A & B & C) S Nr. cbn [step] in S.
  assert (NC : no_clash e page l (w_draws w)).
  { split; [|split].
    - intros i j Hi Hj. apply A; lia.
    - intros id I i Hi. apply (B id I). lia.
    - intros id I i Hi. apply (C id I). lia. }
  apply (reaches_inv _ _ _ _ R) in NC as I.
  destruct (handle_of (w_mhandles w) h) as [mi|]; [|injection S as <- _; auto].
  unfold get_or_register in S. destruct (nth_error (w_mgrs w) mi) as [m|]; [|injection S as <- _; auto].
  destruct (reg_get _ _); [injection S as _ <-; exfalso; now eapply Nr|]. cbv zeta in S.
  destruct (e_debug e && _); [injection S as <- _; auto|].
  destruct (m_data m); [injection S as _ <-; exfalso; now eapply Nr|].
  destruct (mount _ _ _ _ _); [injection S as _ <-; exfalso; now eapply Nr|].
  injection S as <- _. cbn [draw w_dom with_dom w_contents w_mgrs w_handles w_mhandles].
  rewrite (unmount_fresh e page (loaded_ids l) (Datatypes.S (w_draws w)) A B C [] w); auto.
Qed.
Print Assumptions failed_create_leaves_no_trace.

Theorem failed_build_leaves_no_trace : forall e w p c a s w',
  step e w (OBuild p c a s) = (w', RErr) -> w' = w.
Proof.
  intros e w p c a s w' S. cbn in S. unfold build in S. destruct (e_wasm e); [|discriminate].
  destruct c; [discriminate|]. destruct (e_document e); [|now injection S as <-].
  destruct (e_head e); [discriminate|now injection S as <-].
Qed.
Print Assumptions failed_build_leaves_no_trace.

(** The hypotheses are met when the container takes no children. *)
Example failed_create_ex :
  exists w, reaches demo_env [mk_container true false []]
      [OBuild (lit "stylist") (Some 0) true false] w
    /\ snd (step demo_env w (OCreate 0 (demo_key "red"))) = RErr
    /\ no_clash demo_env [mk_container true false []]
         [OBuild (lit "stylist") (Some 0) true false] (S (w_draws w)).
Proof.
  eexists. split; [eexists; reflexivity|]. split; [now vm_compute|].
  apply counter_no_clash; auto; [vm_compute; discriminate|]. intros id [[]|[]].
Qed.

(** ** C25: managers are isolated *)

Lemma reaches_step e page l w o :
  reaches e page l w -> reaches e page (l ++ [o]) (fst (step e w o)).
Proof.
  intros [rs R]. exists (snd (run e (start page) (l ++ [o]))).
  rewrite (surjective_pairing (run e (start page) (l ++ [o]))). cbn [snd]. f_equal.
  rewrite run_app, R. cbn [fst]. now rewrite run_cons.
Qed.

(** An operation that is not on manager [mj] or one of its styles: its registrations and the
    life of its styles are unchanged. *)
Theorem other_managers_untouched : forall e page l w o mj m,
  reaches e page l w -> nth_error (w_mgrs w) mj = Some m -> op_manager w o <> Some mj ->
  let w' := fst (step e w o) in
  (forall k cid, registered w' mj k cid <-> registered w mj k cid)
  /\ (forall cid c, nth_error (w_contents w) cid = Some c -> c_mgr c = mj ->
        nth_error (w_contents w') cid = Some c /\ (alive w' cid <-> alive w cid)).
Proof.
  intros e page l w o mj m R Hj Ho w'. apply reaches_core in R as C.
  pose proof (reaches_core _ _ _ _ (reaches_step _ _ _ _ o R)) as C'. fold w' in C'.
  destruct (step_untouched _ _ _ _ _ _ C Hj Ho) as [U1 U2]. fold w' in U1, U2.
  split.
  - intros k cid. unfold registered. rewrite (U1 _ Hj), Hj. reflexivity.
  - intros cid c Hc Hm. split; [now apply U2|].
    rewrite (alive_strong w cid (o_counted _ _ _ _ C)), (alive_strong w' cid (o_counted _ _ _ _ C')).
    unfold strong_of. now rewrite Hc, (U2 _ _ Hc Hm).
Qed.
Print Assumptions other_managers_untouched.

(** Nor are the elements of its styles. *)
Theorem other_managers_elements_untouched : forall e page l w o mj cid c k,
  let w' := fst (step e w o) in
  reaches e page l w -> no_clash e page (l ++ [o]) (w_draws w') ->
  nth_error (w_contents w) cid = Some c -> c_mgr c = mj -> op_manager w o <> Some mj ->
  mounts_into w c k -> in_document page k ->
  texts_of (c_id c) (w_dom w') = texts_of (c_id c) (w_dom w).
Proof.
  intros e page l w o mj cid c k w' R NC Hc Hm Ho Hk Hd.
  pose proof (reaches_step _ _ _ _ o R) as R'. fold w' in R'.
  pose proof (reaches_inv _ _ _ _ R' NC) as I'.
  pose proof (step_draws e w o) as Ld. fold w' in Ld.
  assert (NC0 : no_clash e page l (w_draws w)).
  { destruct NC as (A & B & C). split; [|split].
    - intros i j Hi Hj. apply A; lia.
    - intros id I i Hi. apply (B id I). lia.
    - intros id I i Hi. apply (C id); [|lia]. unfold loaded_ids. rewrite flat_map_app, in_app_iff. auto. }
  pose proof (reaches_inv _ _ _ _ R NC0) as I.
  apply mounts_place in Hk as Pk. apply in_document_node in Hd.
  assert (Hmj : exists m, nth_error (w_mgrs w) mj = Some m).
  { destruct Hk as (_ & m & H & _). exists m. congruence. }
  destruct Hmj as [m Hmj].
  destruct (step_untouched _ _ _ _ _ _ (inv_core _ _ _ _ _ I) Hmj Ho) as [U1 U2]. fold w' in U1, U2.
  assert (Pk' : place (w_mgrs w') c = Some k).
  { unfold place in *. destruct (c_hydrated c); [discriminate|]. rewrite Hm in *.
    rewrite (U1 _ Hmj). now rewrite Hmj in Pk. }
  destruct NC as (A & B & _). destruct NC0 as (A0 & B0 & _).
  rewrite (texts_of_content e page _ _ w' cid c k A B I' (le_n _) (U2 _ _ Hc Hm) Pk' Hd).
  rewrite (texts_of_content e page _ _ w cid c k A0 B0 I (le_n _) Hc Pk Hd).
  unfold shown. now rewrite Pk, Pk'.
Qed.
Print Assumptions other_managers_elements_untouched.

Example other_managers_ex :
  op_manager demo_world (ODropManager 0) = Some 0
  /\ (exists c, nth_error (w_contents demo_world) 2 = Some c /\ c_mgr c = 1 /\ mounts_into demo_world c 1)
  /\ in_document demo_page 1
  /\ texts_of (lit "other-global-style-2") (w_dom (fst (step demo_env demo_world (ODropManager 0))))
     = [to_style_str None (demo_sheet "red")].
Proof.
  split; [reflexivity|]. split; [|split; [now eexists|now vm_compute]].
  eexists. split; [vm_compute; reflexivity|]. split; [reflexivity|]. split; [reflexivity|].
  eexists. split; [vm_compute; reflexivity|]. now split.
Qed.

(** ** C26: unregister *)

(** [unregister] goes by key: a style that is no longer registered unregisters its
    successor. *)
Theorem unregister_affects_only_itself_refuted :
  exists w h0 h1 c0 c1, reaches demo_env demo_page
      [OBuild (lit "stylist") None true false; OCreate 0 (demo_key "red"); OUnregister 0;
       OCreate 0 (demo_key "red")] w
    /\ handle_of (w_handles w) h0 = Some c0 /\ handle_of (w_handles w) h1 = Some c1 /\ c0 <> c1
    /\ registered w 0 (demo_key "red") c1
    /\ ~ registered (fst (step demo_env w (OUnregister h0))) 0 (demo_key "red") c1.
Proof.
  eexists. exists 0, 1, 0, 1. split; [eexists; vm_compute; reflexivity|].
  split; [reflexivity|]. split; [reflexivity|]. split; [discriminate|]. split.
  - eexists. split; [reflexivity|]. now left.
  - intros (m & Hm & I). vm_compute in Hm. injection Hm as <-. exact I.
Qed.
Print Assumptions unregister_affects_only_itself_refuted.

Lemma registered_content_of e page l w mi k cid :
  reaches e page l w -> registered w mi k cid ->
  exists c, nth_error (w_contents w) cid = Some c /\ c_key c = k /\ c_mgr c = mi.
Proof.
  intros R (m & Hm & I). apply reaches_core in R.
  destruct (o_reg _ _ _ _ R _ _ Hm) as (_ & _ & H). now apply H.
Qed.

(** While the style itself is the registered one, unregistering it removes this registration
    and no other, and afterwards it lives by its handles alone. *)
Theorem unregister_affects_only_itself_partial : forall e page l w h cid c,
  reaches e page l w -> handle_of (w_handles w) h = Some cid ->
  nth_error (w_contents w) cid = Some c -> registered w (c_mgr c) (c_key c) cid ->
  let w' := fst (step e w (OUnregister h)) in
  (forall mj k i, registered w' mj k i <-> registered w mj k i /\ i <> cid)
  /\ (alive w' cid <-> held w' cid)
  /\ (forall i, held w' i <-> held w i)
  /\ (forall i, i <> cid -> (alive w' i <-> alive w i)).
Proof.
  intros e page l w h cid c R Hh Hc Hr w'. pose proof R as R0. apply reaches_core in R as C.
  destruct Hr as (m & Hm & I). destruct (o_reg _ _ _ _ C _ _ Hm) as (ND & Z & RO).
  assert (Reg : forall mj k i, registered w' mj k i <-> registered w mj k i /\ i <> cid).
  { assert (S : exists a b, m_reg m = a ++ (c_key c, cid) :: b /\ ~ In (c_key c) (map fst a)
       /\ w_mgrs w' = upd (w_mgrs w) (c_mgr c) (set_reg (a ++ b))).
    { unfold w'. cbn [step]. unfold unregister_style. rewrite Hh, Hc, Hm.
      destruct (Nat.eqb_spec (m_strong m) 0) as [Q|Q]; [apply Z in Q; rewrite Q in I; destruct I|].
      destruct (reg_remove (m_reg m) (c_key c)) as [r o] eqn:Rm. cbn [fst].
      destruct (reg_remove_spec _ _ _ _ Rm) as [(_ & _ & N)|(a & x & b & -> & Ea & -> & Na)].
      { exfalso. apply N. apply in_map_iff. now exists (c_key c, cid). }
      assert (x = cid) as ->.
      { pose proof (reg_get_complete _ _ _ ND I) as G1.
        assert (In (c_key c, x) (m_reg m)) as I2 by (rewrite Ea; apply in_app_iff; right; now left).
        pose proof (reg_get_complete _ _ _ ND I2). congruence. }
      exists a, b. split; [exact Ea|]. split; [exact Na|].
      match goal with |- w_mgrs (release e ?x ?y) = _ =>
        destruct (release_frame e x y) as (_ & -> & _) end. reflexivity. }
    destruct S as (a & b & Ea & Na & Ew). intros mj k i. unfold registered. rewrite Ew, nth_upd.
    destruct (Nat.eqb_spec (c_mgr c) mj) as [<-|Nj].
    - rewrite Hm. cbn [option_map]. split.
      + intros (m' & [= <-] & Ik). cbn in Ik.
        assert (Ik' : In (k, i) (m_reg m)).
        { rewrite Ea. rewrite in_app_iff in *. cbn. tauto. }
        split; [eauto|]. intros ->. destruct (RO _ _ Ik') as (c' & Hc' & K & _).
        assert (k = c_key c) as -> by congruence.
        rewrite Ea, map_app in ND. cbn in ND. apply NoDup_remove_2 in ND. apply ND.
        rewrite <- map_app. apply in_map_iff. now exists (c_key c, cid).
      + intros [(m' & [= <-] & Ik) Ni]. eexists. split; [reflexivity|]. cbn.
        rewrite Ea in Ik. rewrite in_app_iff in *. cbn in Ik. destruct Ik as [?|[E|?]]; auto.
        injection E as _ E. congruence.
    - split.
      + intros (m' & Hm' & Ik). split; [eauto|]. intros ->.
        destruct (o_reg _ _ _ _ C _ _ Hm') as (_ & _ & RO'). destruct (RO' _ _ Ik) as (c' & Hc' & _ & M).
        congruence.
      + intros [H _]. exact H. }
  assert (Hld : forall i, held w' i <-> held w i).
  { intros i. unfold held.
    assert (w_handles w' = w_handles w) as ->; [|reflexivity].
    unfold w'. cbn [step]. unfold unregister_style. rewrite Hh, Hc, Hm.
    destruct (Nat.eqb _ 0); [reflexivity|]. destruct (reg_remove _ _) as [r [x|]]; cbn [fst]; [|reflexivity].
    match goal with |- w_handles (release e ?x ?y) = _ =>
      destruct (release_frame e x y) as (_ & _ & -> & _) end. reflexivity. }
  split; [exact Reg|]. split; [|split; [exact Hld|]].
  - unfold alive. split; [|now left]. intros [H|(mj & k & H)]; [exact H|].
    apply Reg in H as [_ H]. contradiction.
  - intros i Ni. unfold alive. rewrite Hld. split; (intros [H|(mj & k & H)]; [now left|right]).
    + apply Reg in H as [H _]. eauto.
    + exists mj, k. apply Reg. auto.
Qed.
Print Assumptions unregister_affects_only_itself_partial.

(** And it does nothing when its key is not registered any more. *)
Theorem unregister_twice_is_noop : forall e page l w h cid c,
  reaches e page l w -> handle_of (w_handles w) h = Some cid ->
  nth_error (w_contents w) cid = Some c ->
  (forall i, ~ registered w (c_mgr c) (c_key c) i) ->
  let w' := fst (step e w (OUnregister h)) in
  w_dom w' = w_dom w /\ w_contents w' = w_contents w
  /\ (forall mj k i, registered w' mj k i <-> registered w mj k i).
Proof.
  intros e page l w h cid c R Hh Hc Nr w'. unfold w'. cbn [step]. unfold unregister_style.
  rewrite Hh, Hc. destruct (nth_error (w_mgrs w) (c_mgr c)) as [m|] eqn:Hm; [|easy].
  destruct (Nat.eqb _ 0); [easy|]. destruct (reg_remove (m_reg m) (c_key c)) as [r o] eqn:Rm.
  destruct (reg_remove_spec _ _ _ _ Rm) as [(-> & -> & _)|(a & x & b & -> & Ea & -> & Na)].
  - cbn. split; [reflexivity|]. split; [reflexivity|]. intros mj k i. unfold registered. cbn.
    rewrite nth_upd. destruct (Nat.eqb_spec (c_mgr c) mj) as [<-|]; [|reflexivity].
    rewrite Hm. cbn. split; intros (m' & [= <-] & H); eexists; (split; [reflexivity|exact H]).
  - exfalso. apply (Nr x). exists m. split; [exact Hm|]. rewrite Ea. apply in_app_iff. right. now left.
Qed.
Print Assumptions unregister_twice_is_noop.

(** Exactly: it ends the registration under the key of the style in its manager, whichever
    style is registered there, and no other; so it affects only itself if and only if no other
    style is registered under its key. *)
Theorem unregister_exact : forall e page l w h cid c,
  reaches e page l w -> handle_of (w_handles w) h = Some cid ->
  nth_error (w_contents w) cid = Some c ->
  let w' := fst (step e w (OUnregister h)) in
  snd (step e w (OUnregister h)) = RDone
  /\ (forall mj k i, registered w' mj k i
        <-> registered w mj k i /\ ~ (mj = c_mgr c /\ k = c_key c))
  /\ (forall i, held w' i <-> held w i)
  /\ ((forall mj k i, i <> cid -> registered w mj k i -> registered w' mj k i)
       <-> (forall i, registered w (c_mgr c) (c_key c) i -> i = cid)).
Proof.
  intros e page l w h cid c R Hh Hc w'. apply reaches_core in R as C.
  assert (X : snd (step e w (OUnregister h)) = RDone
    /\ (forall mj k i, registered w' mj k i <-> registered w mj k i /\ ~ (mj = c_mgr c /\ k = c_key c))
    /\ (forall i, held w' i <-> held w i)).
  { unfold w'. cbn [step]. unfold unregister_style. rewrite Hh, Hc.
    destruct (o_content _ _ _ _ C _ _ Hc) as [Hlt _].
    destruct (nth_error (w_mgrs w) (c_mgr c)) as [m|] eqn:Hm; [|apply nth_error_None in Hm; lia].
    destruct (o_reg _ _ _ _ C _ _ Hm) as (ND & Z & RO).
    destruct (Nat.eqb_spec (m_strong m) 0) as [Q|Q].
    { apply Z in Q. cbn. split; [reflexivity|]. split; [|reflexivity]. intros mj k i. split; [|tauto].
      intros H. split; [exact H|]. intros [-> ->]. destruct H as (m' & Hm' & I). rewrite Hm in Hm'.
      injection Hm' as <-. rewrite Q in I. exact I. }
    destruct (reg_remove (m_reg m) (c_key c)) as [r o] eqn:Rm. cbn [fst snd]. split; [reflexivity|].
    set (w1 := with_mgrs w (upd (w_mgrs w) (c_mgr c) (set_reg r))).
    assert (F : w_mgrs (match o with Some x => release e x w1 | None => w1 end) = w_mgrs w1
             /\ w_handles (match o with Some x => release e x w1 | None => w1 end) = w_handles w).
    { destruct o as [x|]; [|now split]. destruct (release_frame e x w1) as (_ & -> & -> & _). now split. }
    destruct F as [F1 F2]. split; [|intros i; unfold held; now rewrite F2].
    assert (Rr : forall k i, In (k, i) r <-> In (k, i) (m_reg m) /\ k <> c_key c).
    { destruct (reg_remove_spec _ _ _ _ Rm) as [(-> & -> & N)|(a & x & b & -> & Ea & -> & Na)]; intros k i.
      - split; [|tauto]. intros I. split; [exact I|]. intros ->. apply N. apply in_map_iff. now exists (c_key c, i).
      - rewrite Ea. rewrite !in_app_iff. cbn [In]. split.
        + intros I. split; [tauto|]. intros ->. rewrite Ea, map_app in ND. cbn in ND. apply NoDup_remove_2 in ND.
          apply ND. rewrite <- map_app. apply in_map_iff. exists (c_key c, i). split; [reflexivity|].
          now apply in_app_iff.
        + intros [[I|[[= <- _]|I]] Nk]; auto. now elim Nk. }
    intros mj k i. unfold registered. rewrite F1. unfold w1. cbn [with_mgrs w_mgrs]. rewrite nth_upd.
    destruct (Nat.eqb_spec (c_mgr c) mj) as [<-|Nj].
    - rewrite Hm. cbn [option_map]. split.
      + intros (m' & [= <-] & I). cbn in I. apply Rr in I as [I Nk]. split; [eauto|]. tauto.
      + intros [(m' & [= <-] & I) Nk]. eexists. split; [reflexivity|]. cbn. apply Rr. split; [exact I|]. tauto.
    - split; [|tauto]. intros H. split; [exact H|]. intros [-> _]. now elim Nj. }
  destruct X as (X1 & X2 & X3). split; [exact X1|]. split; [exact X2|]. split; [exact X3|]. split.
  - intros H i I. destruct (Nat.eq_dec i cid) as [|N]; [assumption|]. exfalso.
    apply (H _ _ _ N) in I. apply X2 in I as [_ I]. now apply I.
  - intros H mj k i N I. apply X2. split; [exact I|]. intros [-> ->]. apply N. now apply H.
Qed.
Print Assumptions unregister_exact.

Example unregister_ex :
  handle_of (w_handles demo_world) 2 = Some 2
  /\ (exists c, nth_error (w_contents demo_world) 2 = Some c
        /\ registered demo_world (c_mgr c) (c_key c) 2)
  /\ handle_of (w_handles demo_world) 3 = Some 0
  /\ (exists c, nth_error (w_contents demo_world) 0 = Some c
        /\ forall i, ~ registered demo_world (c_mgr c) (c_key c) i).
Proof.
  split; [reflexivity|]. split; [|split; [reflexivity|]].
  - eexists. split; [vm_compute; reflexivity|]. eexists. split; [vm_compute; reflexivity|].
    vm_compute. now left.
  - eexists. split; [vm_compute; reflexivity|]. intros i (m & Hm & I). vm_compute in Hm.
    injection Hm as <-. vm_compute in I. destruct I as [I|[]]. discriminate I.
Qed.

(** ** C27: dropping a manager *)

Theorem last_manager_drop_releases_styles : forall e page l w h mi,
  reaches e page l w -> handle_of (w_mhandles w) h = Some mi ->
  (forall h', h' <> h -> handle_of (w_mhandles w) h' <> Some mi) ->
  let w' := fst (step e w (ODropManager h)) in
  snd (step e w (ODropManager h)) = RDone
  /\ (forall k cid, ~ registered w' mi k cid)
  /\ (forall cid c, nth_error (w_contents w) cid = Some c -> c_mgr c = mi ->
        (alive w' cid <-> held w cid))
  /\ (forall a cid c, handle_of (w_handles w') a = Some cid ->
        nth_error (w_contents w') cid = Some c -> c_mgr c = mi ->
        step e w' (OUnregister a) = (w', RDone)).
Proof.
  intros e page l w h mi R Hh U w'. apply reaches_core in R as C.
  pose proof (reaches_core _ _ _ _ (reaches_step _ _ _ _ (ODropManager h) R)) as C'. fold w' in C'.
  destruct (core_manager _ _ _ _ _ _ C Hh) as (m & Hm & Hs).
  assert (S1 : m_strong m = 1).
  { pose proof (o_mcounted _ _ _ _ C mi) as Q. unfold mstrong_of in Q. rewrite Hm in Q.
    pose proof (cnt_live_drop _ _ _ mi Hh) as D. rewrite Nat.eqb_refl in D.
    destruct (Nat.eq_dec (cnt (live (upd (w_mhandles w) h (fun _ => None))) mi) 0) as [Z|Z]; [lia|].
    exfalso. assert (P : cnt (live (upd (w_mhandles w) h (fun _ => None))) mi >= 1) by lia.
    destruct (live_handle _ _ P) as [h' H'].
    unfold handle_of in H'. rewrite nth_upd in H'. destruct (Nat.eqb_spec h h') as [Q0|N].
    - destruct (nth_error (w_mhandles w) h'); discriminate.
    - apply (U h'); [congruence|exact H']. }
  assert (E : w' = release_all e (map snd (m_reg m))
                (with_mgrs (with_mhandles w (upd (w_mhandles w) h (fun _ => None)))
                   (upd (w_mgrs w) mi (fun m => set_mstrong 0 (set_reg [] m))))
              /\ snd (step e w (ODropManager h)) = RDone).
  { unfold w'. cbn [step]. unfold drop_manager. rewrite Hh, Hm, S1. split; reflexivity. }
  destruct E as [E Er]. split; [exact Er|].
  match type of E with _ = release_all e ?x ?y =>
    destruct (release_all_frame e x y) as (_ & F2 & F3 & _ & F5) end. rewrite <- E in F2, F3, F5.
  cbn in F2, F3, F5.
  assert (Hm' : nth_error (w_mgrs w') mi = Some (set_mstrong 0 (set_reg [] m))).
  { rewrite F2, nth_upd_eq, Hm. reflexivity. }
  assert (Nr : forall k cid, ~ registered w' mi k cid).
  { intros k cid (m' & Hm2 & I). rewrite Hm' in Hm2. injection Hm2 as <-. exact I. }
  split; [exact Nr|]. split.
  - intros cid c Hc Hcm. unfold alive, held. rewrite F3. split; [|now left].
    intros [H|(mj & k & m' & Hm2 & I)]; [exact H|exfalso].
    destruct (o_reg _ _ _ _ C' _ _ Hm2) as (_ & _ & RO). destruct (RO _ _ I) as (c' & Hc' & _ & M).
    destruct (base_nth _ _ _ _ F5 Hc') as (c2 & Hc2 & B). apply base_fields in B.
    assert (mj = mi) as -> by (destruct B as (_ & _ & _ & B & _); congruence).
    apply (Nr k cid). now exists m'.
  - intros a cid c Ha Hc Hcm. cbn [step]. unfold unregister_style. now rewrite Ha, Hc, Hcm, Hm'.
Qed.
Print Assumptions last_manager_drop_releases_styles.

(** In the example manager 0 has one handle; [blue] goes with it, [red] has a clone. *)
Example last_manager_drop_ex :
  handle_of (w_mhandles demo_world) 0 = Some 0
  /\ (forall h', h' <> 0 -> handle_of (w_mhandles demo_world) h' <> Some 0)
  /\ held demo_world 0 /\ alive demo_world 1 /\ ~ held demo_world 1.
Proof.
  split; [reflexivity|]. split; [|split; [now exists 3|split]].
  - intros [|[|h]] N; [contradiction|vm_compute; discriminate|].
    replace (handle_of (w_mhandles demo_world) (S (S h))) with (@None nat); [discriminate|].
    unfold handle_of. assert (nth_error (w_mhandles demo_world) (S (S h)) = None) as ->; [|reflexivity].
    apply nth_error_None. vm_compute. lia.
  - right. exists 0, (demo_key "blue"). eexists. split; [vm_compute; reflexivity|]. vm_compute. now left.
  - intros [h H]. do 4 (destruct h as [|h]; [vm_compute in H; discriminate|]).
    unfold handle_of in H. assert (Z : nth_error (w_handles demo_world) (S (S (S (S h)))) = None).
    { apply nth_error_None. vm_compute. lia. }
    rewrite Z in H. discriminate.
Qed.

(** ** C51: class names after hydration *)

(** The counter of the client starts at zero again: a style created on the client can get the
    class name of a hydrated style with different declarations. *)
Definition hydrating_page : dom :=
  [mk_container true true [EStyle (lit "stylist-style-0") (lit ".stylist-style-0 {}")]].
Definition hydrating_history : list op :=
  [OBuild (lit "stylist") None true false;
   OLoad 0 [mk_record (demo_key "red") (lit "stylist-style-0") (lit ".stylist-style-0 {}")];
   OCreate 0 (demo_key "red"); OCreate 0 (demo_key "blue")].
Theorem hydrated_names_never_collide_refuted :
  exists w, reaches demo_env hydrating_page hydrating_history w
    /\ get_id w 0 = Some (lit "stylist-style-0") /\ get_id w 1 = Some (lit "stylist-style-0")
    /\ handle_of (w_handles w) 0 <> handle_of (w_handles w) 1
    /\ get_style_str w 0 <> get_style_str w 1.
Proof.
  eexists. split; [eexists; vm_compute; reflexivity|].
  split; [reflexivity|]. split; [reflexivity|]. split; discriminate.
Qed.
Print Assumptions hydrated_names_never_collide_refuted.

(** With ids that do not clash with the loaded ones, styles created here never share a class
    name with a hydrated one. *)
Theorem hydrated_names_never_collide_partial : forall e page l w i j c d,
  reaches e page l w -> no_clash e page l (w_draws w) ->
  nth_error (w_contents w) i = Some c -> nth_error (w_contents w) j = Some d ->
  c_hydrated c = false -> c_hydrated d = true -> c_id c <> c_id d.
Proof.
  intros e page l w i j c d R NC Hc Hd Hh Hh'. apply (reaches_inv _ _ _ _ R) in NC as I.
  destruct (i_ids _ _ _ _ _ I) as [_ U]. apply (U i j c d Hc Hd); [|exact Hh].
  intros ->. congruence.
Qed.
Print Assumptions hydrated_names_never_collide_partial.

Example hydrated_names_ex :
  exists w, reaches demo_env demo_page
      [OBuild (lit "stylist") None true false;
       OLoad 0 [mk_record (demo_key "red") (lit "srv-1") (lit "")]; OCreate 0 (demo_key "blue")] w
    /\ option_map c_hydrated (nth_error (w_contents w) 0) = Some true
    /\ option_map c_hydrated (nth_error (w_contents w) 1) = Some false.
Proof. eexists. split; [eexists; vm_compute; reflexivity|]. now vm_compute. Qed.
