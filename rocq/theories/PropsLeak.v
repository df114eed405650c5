(** * PropsLeak: which elements are left behind (C52). *)

From Coq Require Import String Ascii List NArith Bool Arith Lia.
From Verif Require Import Str StrFacts Ast Render Ids CssParser Manager SpecManager ManagerFacts ManagerInv
  ManagerSteps ManagerCore ManagerProps PropsManager LeakFacts.
Import ListNotations.
Local Open Scope list_scope.
Local Opaque parse to_style_str.

(** A style that nothing holds any more has left its element behind in the container of its
    manager exactly if the document does not reach the container, or the id is no plain
    identifier. *)
Theorem removed_when_dropped_iff : forall e page l w cid c k,
  reaches e page l w -> no_clash e page l (w_draws w) ->
  e_wasm e = true -> e_document e = true ->
  nth_error (w_contents w) cid = Some c -> mounts_into w c k -> ~ alive w cid ->
  ((exists n, nth_error (w_dom w) k = Some n /\ In (EStyle (c_id c) (c_text c)) (n_children n))
   <-> ~ (in_document page k /\ plain_ident (c_id c) = true)).
Proof.
  intros e page l w cid c k R NC W D Hc Hk Na. destruct (stuck_reached e page l w W R) as [St Sh]. split.
  - intros (n & Hn & I) [Hd Pl]. destruct (in_document_exactly_while_alive e page l w cid c k R NC W D Hc Hk Hd Pl) as [_ T].
    specialize (T Na). assert (Hd' : in_document (w_dom w) k) by (eapply shape_in_document; [|exact Hd]; unfold same_shape in *; now symmetry).
    destruct Hd' as (n' & Hn' & In'). rewrite Hn in Hn'. injection Hn' as <-.
    assert (J : In (c_text c) (texts_of (c_id c) (w_dom w))).
    { unfold texts_of. apply in_flat_map. exists n. split; [eapply nth_error_In; exact Hn|]. rewrite In'.
      clear -I. induction (n_children n) as [|y l0 IH]; [destruct I|]. destruct I as [->|I].
      - cbn. rewrite str_eqb_refl. now left.
      - cbn. apply in_or_app. right. auto. }
    rewrite T in J. destruct J.
  - intros N. apply (St cid c k Hc Hk). destruct (plain_ident (c_id c)) eqn:Pl; [left|now right].
    intros Hd. apply N. split; [|reflexivity]. eapply shape_in_document; [exact Sh|exact Hd].
Qed.
Print Assumptions removed_when_dropped_iff.

(** More: such an element stays for ever, from the moment the style is made, and also if two styles
    got the same id. *)
Theorem hidden_elements_stay : forall e page l w cid c k,
  reaches e page l w -> e_wasm e = true ->
  nth_error (w_contents w) cid = Some c -> mounts_into w c k ->
  ~ in_document page k \/ plain_ident (c_id c) = false ->
  exists n, nth_error (w_dom w) k = Some n /\ In (EStyle (c_id c) (c_text c)) (n_children n).
Proof.
  intros e page l w cid c k R W Hc Hk H. destruct (stuck_reached e page l w W R) as [St Sh]. apply (St cid c k Hc Hk).
  destruct H as [H|H]; [left|right; exact H]. intros Hd. apply H. eapply shape_in_document; [exact Sh|exact Hd].
Qed.
Print Assumptions hidden_elements_stay.

(** Three managers: in the document, in a shadow root, and in the document with a prefix that is
    no identifier.  All styles are dropped: the first is gone, the others are not. *)
Definition leak_page : dom := [mk_container true true []; mk_container false true []].
Definition leak_history : list op :=
  [OBuild (lit "a") (Some 0) true false; OBuild (lit "b") (Some 1) true false; OBuild (lit "1") (Some 0) true false;
   OCreate 0 (mk_key false (lit "a") (demo_sheet "red")); OCreate 1 (mk_key false (lit "b") (demo_sheet "red"));
   OCreate 2 (mk_key false (lit "1") (demo_sheet "red"));
   ODropManager 0; ODropManager 1; ODropManager 2; ODropStyle 0; ODropStyle 1; ODropStyle 2].
Definition leak_world : world := fst (run demo_env (start leak_page) leak_history).
Lemma leak_reaches : reaches demo_env leak_page leak_history leak_world.
Proof. exists (snd (run demo_env (start leak_page) leak_history)). apply surjective_pairing. Qed.
Example removed_when_dropped_iff_ex : forall cid c k, nth_error (w_contents leak_world) cid = Some c -> mounts_into leak_world c k ->
  ((exists n, nth_error (w_dom leak_world) k = Some n /\ In (EStyle (c_id c) (c_text c)) (n_children n)) <-> cid = 1 \/ cid = 2)
  /\ List.length (w_contents leak_world) = 3.
Proof.
  intros cid c k Hc Hk. split; [|vm_compute; reflexivity].
  assert (Na : ~ alive leak_world cid).
  { apply (not_alive_check _ _ _ _ _ leak_reaches). destruct cid as [|[|[|cid]]]; [vm_compute; reflexivity..|]. exfalso. vm_compute in Hc. destruct cid; discriminate. }
  assert (Nc : no_clash demo_env leak_page leak_history (w_draws leak_world)).
  { apply counter_no_clash; [reflexivity|vm_compute; discriminate|]. intros id [[]|[]]. }
  rewrite (removed_when_dropped_iff demo_env leak_page leak_history leak_world cid c k leak_reaches Nc eq_refl eq_refl Hc Hk Na).
  destruct Hk as (_ & m & Hm & _ & Mk). destruct cid as [|[|[|cid]]]; [| | |exfalso; vm_compute in Hc; destruct cid; discriminate];
    vm_compute in Hc; injection Hc as <-; vm_compute in Hm; injection Hm as <-; cbn in Mk; injection Mk as <-.
  - split; [|intros [E|E]; discriminate]. intros N. exfalso. apply N. split; [eexists; split; reflexivity|vm_compute; reflexivity].
  - split; [now left|]. intros _ [(n & H & I) _]. cbn in H. injection H as <-. discriminate.
  - split; [now right|]. intros _ [_ P]. vm_compute in P. discriminate.
Qed.
